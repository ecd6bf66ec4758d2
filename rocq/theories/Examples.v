(** Examples.v -- concrete networks used to show that hypotheses are satisfiable,
    and a boolean checker for [wfnet]. *)
From Verif Require Import Py Num BayesNet Factor SpecFactor Radix.
Open Scope nat_scope.

Definition qq (n : Z) (d : positive) : Qc := Q2Qc (n # d).
Definition nm (s : string) : name := NStr s.

Definition nodupb (l : list name) : bool :=
  (fix go l := match l with [] => true | x :: r => negb (mem x r) && go r end) l.
Lemma nodupb_ok l : nodupb l = true -> NoDup l.
Proof.
  induction l as [|x r IH]; simpl; intros H; [constructor|].
  apply andb_prop in H as [H1 H2]. constructor; [|auto].
  apply negb_true_iff in H1. now apply mem_false.
Qed.
Definition inclb (l m : list name) : bool := forallb (fun x => mem x m) l.
Lemma inclb_ok l m : inclb l m = true -> incl l m.
Proof. unfold inclb. rewrite forallb_forall. intros H x Hx. apply mem_In. auto. Qed.

Definition wfnode (bn : bayesnet) (v : name) : bool :=
  match dget (bn_F bn) v with
  | None => false
  | Some d => nodupb (v :: f_parents d) && inclb (f_parents d) (bn_V bn) && nodupb (f_values d) &&
              negb (length (f_values d) =? 0) &&
              (length (f_cptl d) =? nprod (map (ncard bn) (v :: f_parents d)))
  end.
Definition wfnetb (bn : bayesnet) : bool := nodupb (bn_V bn) && forallb (wfnode bn) (bn_V bn).

Lemma wfnetb_ok bn : wfnetb bn = true -> wfnet bn.
Proof.
  unfold wfnetb. intros H. apply andb_prop in H as [H1 H2]. rewrite forallb_forall in H2.
  assert (G : forall v, In v (bn_V bn) -> exists d, dget (bn_F bn) v = Some d /\
     NoDup (v :: f_parents d) /\ incl (f_parents d) (bn_V bn) /\ NoDup (f_values d) /\ f_values d <> [] /\
     length (f_cptl d) = nprod (map (ncard bn) (v :: f_parents d))).
  { intros v Hv. specialize (H2 v Hv). unfold wfnode in H2. destruct (dget (bn_F bn) v) as [d|]; [|discriminate].
    exists d. rewrite !andb_true_iff in H2. destruct H2 as [[[[K1 K2] K3] K4] K5].
    apply nodupb_ok in K1, K3. apply inclb_ok in K2. apply Nat.eqb_eq in K5.
    apply negb_true_iff in K4. apply Nat.eqb_neq in K4.
    split; [reflexivity|]. split; [assumption|]. split; [assumption|]. split; [assumption|]. split; [|assumption].
    intros E. rewrite E in K4. simpl in K4. congruence. }
  constructor.
  - now apply nodupb_ok.
  - intros v Hv. destruct (G v Hv) as (d & Hd & _). eauto.
  - intros v Hv. destruct (G v Hv) as (d & Hd & K & _). unfold nparents. now rewrite Hd.
  - intros v Hv. destruct (G v Hv) as (d & Hd & _ & K & _). unfold nparents. now rewrite Hd.
  - intros v Hv. destruct (G v Hv) as (d & Hd & _ & _ & K1 & K2 & _). unfold nvalues. now rewrite Hd.
  - intros v Hv. destruct (G v Hv) as (d & Hd & _ & _ & _ & _ & K). unfold nparents, ncpt. now rewrite Hd.
Qed.

(** A -> B, A -> C, B -> C with 2, 3 and 2 values *)
Definition exA := nm "A". Definition exB := nm "B". Definition exC := nm "C".
Definition ex3 : bayesnet :=
  mkBN [exA; exB; exC]
       [(exA, [exB; exC]); (exB, [exC]); (exC, [])]
       [(exA, mkF [] [nm "0"; nm "1"] [qq 2 5; qq 3 5]);
        (exB, mkF [exA] [nm "0"; nm "1"; nm "2"] [qq 1 5; qq 1 5; qq 3 5; qq 1 2; qq 1 4; qq 1 4]);
        (exC, mkF [exA; exB] [nm "0"; nm "1"]
           [qq 1 10; qq 9 10; qq 2 10; qq 8 10; qq 3 10; qq 7 10;
            qq 4 10; qq 6 10; qq 1 2; qq 1 2; qq 6 10; qq 4 10])].
Example ex3_wf : wfnet ex3.
Proof. apply wfnetb_ok. vm_compute. reflexivity. Qed.

(** result of a computation that is known to succeed (examples only) *)
Definition unres {A} (r : res A) (d : A) : A := match r with Ok a => a | Raise _ => d end.
