(** Num.v -- exact rational numbers (the model of floats), finite sums, products
    and maxima.  IEEE rounding error is not modelled here (see Float.v and DESIGN.md). *)
From Verif Require Import Py.
From Coq Require Export QArith Qcanon Lqa.
Open Scope nat_scope.

Delimit Scope Qc_scope with Qc.

Definition qsum (l : list Qc) : Qc := fold_right Qcplus 0%Qc l.
Definition qprod (l : list Qc) : Qc := fold_right Qcmult 1%Qc l.
Definition qltb (a b : Qc) : bool := if Qclt_le_dec a b then true else false.
Definition qleb (a b : Qc) : bool := if Qclt_le_dec b a then false else true.
Definition qmax (a b : Qc) : Qc := if Qclt_le_dec a b then b else a.
Definition nQc (n : nat) : Qc := Q2Qc (inject_Z (Z.of_nat n)).
Definition zQc (n : Z) : Qc := Q2Qc (inject_Z n).
(** product of a list of naturals: [np.prod] / [np.product] on ints *)
Definition nprod (l : list nat) : nat := fold_right Nat.mul 1 l.
Definition nsum (l : list nat) : nat := fold_right Nat.add 0 l.

(** Order reasoning on [Qc] by [lra]/[nra] on [Q]. *)
Lemma Qc_eq_Q (a b : Qc) : (this a == this b)%Q -> a = b.
Proof. apply Qc_is_canon. Qed.
Lemma this_plus (a b : Qc) : (this (a + b)%Qc == this a + this b)%Q.
Proof. apply Qred_correct. Qed.
Lemma this_mult (a b : Qc) : (this (a * b)%Qc == this a * this b)%Q.
Proof. apply Qred_correct. Qed.
Lemma this_opp (a : Qc) : (this (- a)%Qc == - this a)%Q.
Proof. apply Qred_correct. Qed.
Lemma this_minus (a b : Qc) : (this (a - b)%Qc == this a - this b)%Q.
Proof. unfold Qcminus. rewrite this_plus, this_opp. reflexivity. Qed.
Lemma this_Q2Qc (q : Q) : (this (Q2Qc q) == q)%Q.
Proof. apply Qred_correct. Qed.

Ltac qc2q :=
  unfold Qcle, Qclt in *;
  repeat match goal with
  | H : context [this (?a + ?b)%Qc] |- _ => rewrite (this_plus a b) in H
  | H : context [this (?a * ?b)%Qc] |- _ => rewrite (this_mult a b) in H
  | H : context [this (?a - ?b)%Qc] |- _ => rewrite (this_minus a b) in H
  | H : context [this (- ?a)%Qc] |- _ => rewrite (this_opp a) in H
  | H : context [this (Q2Qc ?a)] |- _ => rewrite (this_Q2Qc a) in H
  | |- context [this (?a + ?b)%Qc] => rewrite (this_plus a b)
  | |- context [this (?a * ?b)%Qc] => rewrite (this_mult a b)
  | |- context [this (?a - ?b)%Qc] => rewrite (this_minus a b)
  | |- context [this (- ?a)%Qc] => rewrite (this_opp a)
  | |- context [this (Q2Qc ?a)] => rewrite (this_Q2Qc a)
  end.
Ltac qclra := qc2q; lra.
Ltac qcnra := qc2q; nra.

Lemma qltb_spec a b : reflect (a < b)%Qc (qltb a b).
Proof. unfold qltb. destruct (Qclt_le_dec a b); constructor; [assumption|qclra]. Qed.
Lemma qleb_spec a b : reflect (a <= b)%Qc (qleb a b).
Proof. unfold qleb. destruct (Qclt_le_dec b a); constructor; [qclra|assumption]. Qed.

Lemma qmax_ge_l a b : (a <= qmax a b)%Qc.
Proof. unfold qmax. destruct (Qclt_le_dec a b); qclra. Qed.
Lemma qmax_ge_r a b : (b <= qmax a b)%Qc.
Proof. unfold qmax. destruct (Qclt_le_dec a b); qclra. Qed.
Lemma qmax_lub a b c : (a <= c -> b <= c -> qmax a b <= c)%Qc.
Proof. unfold qmax. destruct (Qclt_le_dec a b); auto. Qed.
Lemma qmax_cases a b : qmax a b = a \/ qmax a b = b.
Proof. unfold qmax. destruct (Qclt_le_dec a b); auto. Qed.
Lemma Qcle_antisym' a b : (a <= b -> b <= a -> a = b)%Qc.
Proof. apply Qcle_antisym. Qed.

Lemma qsum_app l1 l2 : qsum (l1 ++ l2) = (qsum l1 + qsum l2)%Qc.
Proof. induction l1 as [|x r IH]; simpl; [ring|]. rewrite IH. ring. Qed.
Lemma qprod_app l1 l2 : qprod (l1 ++ l2) = (qprod l1 * qprod l2)%Qc.
Proof. induction l1 as [|x r IH]; simpl; [ring|]. rewrite IH. ring. Qed.
Lemma qsum_perm l1 l2 : Permutation l1 l2 -> qsum l1 = qsum l2.
Proof. induction 1; simpl; try congruence. ring. Qed.
Lemma qprod_perm l1 l2 : Permutation l1 l2 -> qprod l1 = qprod l2.
Proof. induction 1; simpl; try congruence. ring. Qed.
Lemma qsum_map_mult_l {A} c (f : A -> Qc) l : qsum (map (fun x => c * f x)%Qc l) = (c * qsum (map f l))%Qc.
Proof. induction l as [|x r IH]; simpl; [ring|]. rewrite IH. ring. Qed.
Lemma qsum_map_mult_r {A} c (f : A -> Qc) l : qsum (map (fun x => f x * c)%Qc l) = (qsum (map f l) * c)%Qc.
Proof. induction l as [|x r IH]; simpl; [ring|]. rewrite IH. ring. Qed.
Lemma qsum_map_plus {A} (f g : A -> Qc) l : qsum (map (fun x => f x + g x)%Qc l) = (qsum (map f l) + qsum (map g l))%Qc.
Proof. induction l as [|x r IH]; simpl; [ring|]. rewrite IH. ring. Qed.
Lemma qsum_map_ext {A} (f g : A -> Qc) l : (forall x, In x l -> f x = g x) -> qsum (map f l) = qsum (map g l).
Proof. intros H. f_equal. now apply map_ext_in. Qed.
Lemma qprod_map_ext {A} (f g : A -> Qc) l : (forall x, In x l -> f x = g x) -> qprod (map f l) = qprod (map g l).
Proof. intros H. f_equal. now apply map_ext_in. Qed.
Lemma qsum_zero {A} (f : A -> Qc) l : (forall x, In x l -> f x = 0%Qc) -> qsum (map f l) = 0%Qc.
Proof. induction l as [|x r IH]; simpl; intros H; [reflexivity|]. rewrite H, IH; auto. Qed.
Lemma qsum_swap {A B} (f : A -> B -> Qc) l m :
  qsum (map (fun x => qsum (map (f x) m)) l) = qsum (map (fun y => qsum (map (fun x => f x y) l)) m).
Proof.
  induction l as [|x r IH]; simpl.
  - symmetry. now apply qsum_zero.
  - rewrite IH, <- qsum_map_plus. reflexivity.
Qed.
Lemma qsum_nonneg l : (forall x, In x l -> 0 <= x)%Qc -> (0 <= qsum l)%Qc.
Proof.
  induction l as [|x r IH]; simpl; intros H; [apply Qcle_refl|].
  assert (0 <= x)%Qc by auto. assert (0 <= qsum r)%Qc by auto. qclra.
Qed.
Lemma Qcmult_nonneg a b : (0 <= a -> 0 <= b -> 0 <= a * b)%Qc.
Proof. intros. qcnra. Qed.
Lemma qprod_nonneg l : (forall x, In x l -> 0 <= x)%Qc -> (0 <= qprod l)%Qc.
Proof.
  induction l as [|x r IH]; simpl; intros H; [discriminate|].
  apply Qcmult_nonneg; auto.
Qed.
Lemma qsum_le {A} (f g : A -> Qc) l : (forall x, In x l -> f x <= g x)%Qc -> (qsum (map f l) <= qsum (map g l))%Qc.
Proof.
  induction l as [|x r IH]; simpl; intros H; [apply Qcle_refl|].
  assert (f x <= g x)%Qc by auto. assert (qsum (map f r) <= qsum (map g r))%Qc by auto. qclra.
Qed.
Lemma nQc_plus a b : nQc (a + b) = (nQc a + nQc b)%Qc.
Proof. unfold nQc. apply Qc_eq_Q. qc2q. rewrite Nat2Z.inj_add, inject_Z_plus. reflexivity. Qed.
Lemma nQc_mult a b : nQc (a * b) = (nQc a * nQc b)%Qc.
Proof. unfold nQc. apply Qc_eq_Q. qc2q. rewrite Nat2Z.inj_mul, inject_Z_mult. reflexivity. Qed.
Lemma nQc_0 : nQc 0 = 0%Qc.
Proof. reflexivity. Qed.
Lemma nQc_1 : nQc 1 = 1%Qc.
Proof. reflexivity. Qed.
Lemma nQc_S n : nQc (S n) = (1 + nQc n)%Qc.
Proof. apply (nQc_plus 1 n). Qed.
Lemma nQc_nonneg n : (0 <= nQc n)%Qc.
Proof. unfold nQc. qc2q. change 0%Q with (inject_Z 0). rewrite <- Zle_Qle. lia. Qed.
Lemma nQc_pos n : 0 < n -> (0 < nQc n)%Qc.
Proof. intros H. unfold nQc. qc2q. change 0%Q with (inject_Z 0). rewrite <- Zlt_Qlt. lia. Qed.
Lemma nQc_inj a b : nQc a = nQc b -> a = b.
Proof.
  intros H. assert (this (nQc a) == this (nQc b))%Q as E by now rewrite H.
  unfold nQc in E. rewrite !this_Q2Qc in E.
  rewrite inject_Z_injective in E. lia.
Qed.
Lemma nQc_le a b : a <= b -> (nQc a <= nQc b)%Qc.
Proof. intros H. unfold nQc. qc2q. rewrite <- Zle_Qle. lia. Qed.

Lemma nprod_app a b : nprod (a ++ b) = nprod a * nprod b.
Proof. induction a as [|x r IH]; simpl; [lia|]. rewrite IH. lia. Qed.
Lemma nprod_perm a b : Permutation a b -> nprod a = nprod b.
Proof. induction 1; simpl; try congruence. lia. Qed.
Lemma nsum_app a b : nsum (a ++ b) = nsum a + nsum b.
Proof. induction a as [|x r IH]; simpl; [lia|]. rewrite IH. lia. Qed.
Lemma nsum_perm a b : Permutation a b -> nsum a = nsum b.
Proof. induction 1; simpl; try congruence. lia. Qed.
Lemma nprod_pos l : (forall x, In x l -> 0 < x) -> 0 < nprod l.
Proof.
  induction l as [|x r IH]; simpl; intros H; [lia|].
  assert (0 < x) by auto. assert (0 < nprod r) by auto. nia.
Qed.
