(** ChowFacts.v -- facts about the Chow-Liu model. *)
From Verif Require Import Py Num BayesNet Data Graph SpecFactor SpecGraph SpecMst SpecConstraint StructScore Constraint ChowLiu GraphFacts GraphTheory GraphTopsort GraphNet StructFacts ConstraintFacts Mst.
Open Scope nat_scope.

Definition joins (e : wedge) (a b : name) : Prop := fst e = (a, b) \/ fst e = (b, a).
(** ** the sorted edge list *)
Lemma cl_insert_perm x l : Permutation (x :: l) (cl_insert x l).
Proof. induction l as [|y r IH]; [reflexivity|]. cbn [cl_insert]. destruct (qltb _ _); [|reflexivity]. rewrite perm_swap. now constructor. Qed.
Lemma cl_sort_perm l : Permutation l (cl_sort l).
Proof. induction l as [|x l IH]; [reflexivity|]. cbn. rewrite <- cl_insert_perm. now constructor. Qed.
Inductive descending : list wedge -> Prop :=
| desc_nil : descending []
| desc_cons x l : (forall y, In y l -> (snd y <= snd x)%Qc) -> descending l -> descending (x :: l).
Lemma desc_inv x l : descending (x :: l) -> (forall y, In y l -> (snd y <= snd x)%Qc) /\ descending l.
Proof. intros H. inversion H; subst. now split. Qed.
Lemma cl_insert_desc x l : descending l -> descending (cl_insert x l).
Proof.
  induction 1 as [|y r H D IH]; [constructor; [intros ? []|constructor]|]. cbn [cl_insert]. destruct (qltb_spec (snd x) (snd y)) as [L|L].
  - constructor; [|exact IH]. intros z Hz. apply (Permutation_in _ (Permutation_sym (cl_insert_perm x r))) in Hz as [<-|Hz]; [|now apply H]. apply Qclt_le_weak, L.
  - apply Qcnot_lt_le in L. constructor; [|now constructor]. intros z [<-|Hz]; [exact L|]. apply Qcle_trans with (snd y); [now apply H|exact L].
Qed.
Lemma cl_sort_desc l : descending (cl_sort l).
Proof. induction l as [|x l IH]; [constructor|]. now apply cl_insert_desc. Qed.
Lemma In_cl_pairs n a b : In (a, b) (cl_pairs n) <-> exists i j, a = NInt i /\ b = NInt j /\ i < j < n.
Proof.
  unfold cl_pairs. rewrite in_flat_map. split.
  - intros (i & Hi & H). apply in_map_iff in H as (j & E & Hj). injection E as <- <-. apply in_seq in Hi, Hj. exists i, j. split; [reflexivity|]. split; [reflexivity|lia].
  - intros (i & j & -> & -> & H). exists i. split; [apply in_seq; lia|]. apply in_map_iff. exists j. split; [reflexivity|apply in_seq; lia].
Qed.
Lemma cl_edges_ok mi w n : (forall a b, In (a, b) (cl_pairs n) -> mi a b = Ok (w a b)) -> cl_edges mi n = Ok (map (fun p => (p, w (fst p) (snd p))) (cl_pairs n)).
Proof. intros H. unfold cl_edges. apply mapM_ok. intros [a b] Hp. cbn [fst snd]. now rewrite H. Qed.

(** ** the edges picked by the loop *)
Fixpoint cl_run (es : list wedge) (C : list name) : list (name * name) :=
  match es with
  | [] => []
  | e :: r => let i := fst (fst e) in let j := snd (fst e) in
      if mem i C && negb (mem j C) then (i, j) :: cl_run r (j :: C)
      else if negb (mem i C) && mem j C then (j, i) :: cl_run r (i :: C) else cl_run r C
  end.
Lemma cl_cases (i j : name) C : (mem i C && negb (mem j C) = true /\ In i C /\ ~ In j C) \/
  (mem i C && negb (mem j C) = false /\ negb (mem i C) && mem j C = true /\ ~ In i C /\ In j C) \/
  (mem i C && negb (mem j C) = false /\ negb (mem i C) && mem j C = false /\ (In i C <-> In j C)).
Proof.
  pose proof (mem_In i C) as Hi. pose proof (mem_In j C) as Hj. destruct (mem i C), (mem j C); cbn.
  - right; right. split; [reflexivity|]. split; [reflexivity|]. intuition.
  - left. split; [reflexivity|]. split; [now apply Hi|]. intros K. apply Hj in K. discriminate.
  - right; left. split; [reflexivity|]. split; [reflexivity|]. split; [|now apply Hj]. intros K. apply Hi in K. discriminate.
  - right; right. split; [reflexivity|]. split; [reflexivity|]. split; intros K; [apply Hi in K|apply Hj in K]; discriminate.
Qed.
Lemma cl_loop_run n es : (forall e, In e es -> In (fst (fst e)) (columns n) /\ In (snd (fst e)) (columns n)) -> forall C T, dkeys T = columns n ->
  exists C', foldM cl_step es (C, T) = Ok (C', fold_left add_one (cl_run es C) T).
Proof.
  induction es as [|e r IH]; intros I C T K; [now exists C|]. assert (I' : forall x, In x r -> In (fst (fst x)) (columns n) /\ In (snd (fst x)) (columns n)) by (intros; apply I; now right).
  destruct (I e (or_introl eq_refl)) as [Ii Ij]. cbn [foldM cl_run]. unfold cl_step at 1. cbn [fst snd].
  assert (App : forall a b, In a (columns n) -> dappend T a b = Ok (add_one T (a, b)) /\ dkeys (add_one T (a, b)) = columns n).
  { intros a b Ha. rewrite <- K in Ha. destruct (In_dget _ _ Ha) as (l & D). split; [|unfold add_one; cbn [fst]; rewrite dkeys_dset_in; assumption].
    rewrite (dappend_ok _ _ _ _ D). unfold add_one, succs. cbn [fst snd]. now rewrite D. }
  destruct (cl_cases (fst (fst e)) (snd (fst e)) C) as [(E1 & _)|[(E1 & E2 & _)|(E1 & E2 & _)]]; rewrite E1, ?E2.
  - destruct (App (fst (fst e)) (snd (fst e)) Ii) as [E K']. rewrite E. cbn [bind]. apply IH; assumption.
  - destruct (App (snd (fst e)) (fst (fst e)) Ij) as [E K']. rewrite E. cbn [bind]. apply IH; assumption.
  - cbn [bind]. apply IH; assumption.
Qed.
Lemma run_fresh es : forall C, NoDup (map snd (cl_run es C)) /\ (forall v, In v (map snd (cl_run es C)) -> ~ In v C).
Proof.
  induction es as [|e r IH]; intros C; [split; [constructor|intros ? []]|]. cbn [cl_run].
  destruct (cl_cases (fst (fst e)) (snd (fst e)) C) as [(E1 & A & B)|[(E1 & E2 & A & B)|(E1 & E2 & _)]]; rewrite E1, ?E2; [| |apply IH].
  - destruct (IH (snd (fst e) :: C)) as [N F]. cbn [map snd]. split; [constructor; [|exact N]; intros K; apply F in K; apply K; now left|]. intros v [<-|Hv]; [exact B|]. apply F in Hv. intros K. apply Hv. now right.
  - destruct (IH (fst (fst e) :: C)) as [N F]. cbn [map snd]. split; [constructor; [|exact N]; intros K; apply F in K; apply K; now left|]. intros v [<-|Hv]; [exact A|]. apply F in Hv. intros K. apply Hv. now right.
Qed.
Lemma run_prefix es : forall C p s t q, cl_run es C = p ++ (s, t) :: q -> In s C \/ In s (map snd p).
Proof.
  induction es as [|e r IH]; intros C p s t q; [destruct p; discriminate|]. cbn [cl_run].
  assert (G : forall a b, In a C -> (a, b) :: cl_run r (b :: C) = p ++ (s, t) :: q -> In s C \/ In s (map snd p)).
  { intros a b Ha E. destruct p as [|x p]; [injection E as -> -> _; now left|]. injection E as <- E. apply IH in E as [[<-|K]|K]; [right; now left|now left|right; now right]. }
  destruct (cl_cases (fst (fst e)) (snd (fst e)) C) as [(E1 & A & B)|[(E1 & E2 & A & B)|(E1 & E2 & _)]]; rewrite E1, ?E2; [now apply G|now apply G|apply IH].
Qed.
Lemma run_in es : forall C s t, In (s, t) (cl_run es C) -> exists e, In e es /\ joins e s t.
Proof.
  induction es as [|e r IH]; intros C s t; [intros []|]. cbn [cl_run].
  assert (R : forall D, In (s, t) (cl_run r D) -> exists x, In x (e :: r) /\ joins x s t) by (intros D H; apply IH in H as (x & Hx & J); exists x; split; [now right|exact J]).
  destruct (cl_cases (fst (fst e)) (snd (fst e)) C) as [(E1 & A & B)|[(E1 & E2 & A & B)|(E1 & E2 & _)]]; rewrite E1, ?E2; [| |apply R].
  - intros [H|H]; [|now apply R in H]. exists e. split; [now left|]. left. rewrite <- H. now destruct (fst e).
  - intros [H|H]; [|now apply R in H]. exists e. split; [now left|]. right. injection H as <- <-. now destruct (fst e).
Qed.
(** a vertex joined to the root is reached, by an edge at least as heavy *)
Lemma run_root es : descending es -> forall C r v e, In r C -> In e es -> joins e r v -> ~ In v C ->
  exists s x, In (s, v) (cl_run es C) /\ In x es /\ joins x s v /\ (snd e <= snd x)%Qc.
Proof.
  induction 1 as [|y l H D IH]; intros C r v e Hr He J Nv; [destruct He|]. cbn [cl_run].
  assert (R : forall C', In r C' -> ~ In v C' -> In e l -> exists s x, In (s, v) (cl_run l C') /\ In x (y :: l) /\ joins x s v /\ (snd e <= snd x)%Qc).
  { intros C' Hr' Nv' He'. destruct (IH C' r v e Hr' He' J Nv') as (s & x & I1 & I2 & I3 & I4). exists s, x. split; [exact I1|]. split; [now right|]. split; assumption. }
  assert (Ed : fst y = (fst (fst y), snd (fst y))) by now destruct (fst y).
  assert (We : (snd e <= snd y)%Qc) by (destruct He as [<-|He]; [apply Qcle_refl|now apply H]).
  destruct (cl_cases (fst (fst y)) (snd (fst y)) C) as [(E1 & A & B)|[(E1 & E2 & A & B)|(E1 & E2 & Iff)]]; rewrite E1, ?E2.
  - destruct (name_eq_dec v (snd (fst y))) as [-> |N].
    + exists (fst (fst y)), y. split; [now left|]. split; [now left|]. split; [now left|exact We].
    + destruct He as [-> |He]; [exfalso; destruct J as [J|J]; rewrite J in *; cbn in *; congruence|].
      destruct (R (snd (fst y) :: C)) as (s & x & I1 & I2); [now right|intros [K|K]; [congruence|contradiction]|exact He|]. exists s, x. split; [now right|exact I2].
  - destruct (name_eq_dec v (fst (fst y))) as [-> |N].
    + exists (snd (fst y)), y. split; [now left|]. split; [now left|]. split; [now right|exact We].
    + destruct He as [-> |He]; [exfalso; destruct J as [J|J]; rewrite J in *; cbn in *; congruence|].
      destruct (R (fst (fst y) :: C)) as (s & x & I1 & I2); [now right|intros [K|K]; [congruence|contradiction]|exact He|]. exists s, x. split; [now right|exact I2].
  - destruct He as [-> |He]; [|now apply R]. exfalso. destruct J as [J|J]; rewrite J in Iff; cbn in Iff; tauto.
Qed.

Lemma cl_pairs_nodup n : NoDup (cl_pairs n).
Proof.
  unfold cl_pairs. assert (G : forall l, NoDup l -> NoDup (flat_map (fun i => map (fun j => (NInt i, NInt j)) (seq (S i) (n - S i))) l)); [|apply G, seq_NoDup].
  induction 1 as [|i l Ni _ IH]; [constructor|]. cbn [flat_map]. apply NoDup_app_intro; [|exact IH|].
  - apply FinFun.Injective_map_NoDup; [intros x y E; now injection E|apply seq_NoDup].
  - intros p H1 H2. apply in_map_iff in H1 as (j & <- & _). apply in_flat_map in H2 as (k & Hk & H2). apply in_map_iff in H2 as (j' & E & _). injection E as -> _. contradiction.
Qed.
