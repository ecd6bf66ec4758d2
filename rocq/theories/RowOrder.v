(** RowOrder.v -- histograms do not depend on the order of the rows: lemmas for C153. *)
From Verif Require Import Py Num BayesNet Data DataUtils SpecLearn SpecData StructScore SpecConstraint DataFacts HistFacts LearnInfer.
From Coq Require Import Sorting.Sorted.
Open Scope nat_scope.

Lemma mapM_uniform {A B} (f : A -> res B) e0 (d : B) l : (forall x, (exists b, f x = Ok b) \/ f x = Raise e0) ->
  mapM f l = if forallb (fun x => match f x with Ok _ => true | Raise _ => false end) l then Ok (map (fun x => match f x with Ok b => b | Raise _ => d end) l) else Raise e0.
Proof.
  intros H. induction l as [|x l IH]; [reflexivity|]. cbn [mapM forallb map]. destruct (H x) as [[b E]|E]; rewrite E; cbn [bind andb]; [|reflexivity].
  rewrite IH. destruct (forallb _ l); reflexivity.
Qed.
Lemma forallb_perm {A} (p : A -> bool) l l' : Permutation l l' -> forallb p l = forallb p l'.
Proof. intros P. apply Bool.eq_iff_eq_true. rewrite !forallb_forall. split; intros H x Hx; apply H; [now apply (Permutation_in _ (Permutation_sym P))|now apply (Permutation_in _ P)]. Qed.
Lemma mapM_perm {A B} (f : A -> res B) e0 (d : B) l l' : (forall x, (exists b, f x = Ok b) \/ f x = Raise e0) -> Permutation l l' ->
  (exists g : A -> B, mapM f l = Ok (map g l) /\ mapM f l' = Ok (map g l')) \/ (mapM f l = Raise e0 /\ mapM f l' = Raise e0).
Proof.
  intros H P. rewrite !(mapM_uniform f e0 d) by assumption. rewrite <- (forallb_perm _ l l' P). destruct (forallb _ l); [left; eexists; now split|now right].
Qed.
Lemma column_perm t t' i : t_ncols t = t_ncols t' -> Permutation (t_rows t) (t_rows t') ->
  (exists g : list name -> name, column t i = Ok (map g (t_rows t)) /\ column t' i = Ok (map g (t_rows t'))) \/ (column t i = Raise IndexError /\ column t' i = Raise IndexError).
Proof.
  intros N P. unfold column. rewrite <- N. destruct (i <? t_ncols t); [|now right]. apply (mapM_perm _ IndexError (NInt 0)); [|exact P].
  intros r. unfold nget. destruct (nth_error r i); [left; eauto|now right].
Qed.
Definition same_sel (R R' : list (list name)) (x y : res (list (list nat))) : Prop :=
  (exists gs : list (list name -> nat), x = Ok (map (fun g => map g R) gs) /\ y = Ok (map (fun g => map g R') gs)) \/ (exists e, x = Raise e /\ y = Raise e).
Lemma select_perm t t' cols : t_ncols t = t_ncols t' -> Permutation (t_rows t) (t_rows t') -> same_sel (t_rows t) (t_rows t') (select t cols) (select t' cols).
Proof.
  intros N P. induction cols as [|c cols IH]; [left; exists []; now split|]. unfold select in *. cbn [mapM].
  assert (C : (exists g : list name -> nat, match c with NInt i => do l <- column t i ;; as_ints l | NStr _ => Raise IndexError end = Ok (map g (t_rows t)) /\
     match c with NInt i => do l <- column t' i ;; as_ints l | NStr _ => Raise IndexError end = Ok (map g (t_rows t'))) \/
     (exists e, match c with NInt i => do l <- column t i ;; as_ints l | NStr _ => Raise IndexError end = Raise e /\ match c with NInt i => do l <- column t' i ;; as_ints l | NStr _ => Raise IndexError end = Raise e)).
  { destruct c as [i|s]; [|right; eexists; now split]. destruct (column_perm t t' i N P) as [(g & E & E')|[E E']]; rewrite E, E'; cbn [bind]; [|right; eexists; now split].
    destruct (mapM_perm (fun x => match x with NInt n => Ok n | NStr _ => Raise TypeError end) TypeError 0 (map g (t_rows t)) (map g (t_rows t'))) as [(h & F & F')|[F F']].
    - intros [n|s]; [left; eauto|now right].
    - now apply Permutation_map.
    - left. exists (fun r => h (g r)). unfold as_ints. rewrite F, F', !map_map. now split.
    - right. exists TypeError. unfold as_ints. now split. }
  destruct C as [(g & E & E')|(e & E & E')]; rewrite E, E'; cbn [bind]; [|right; eexists; now split].
  destruct IH as [(gs & F & F')|(e & F & F')]; rewrite F, F'; cbn [bind]; [left; exists (g :: gs); now split|right; eexists; now split].
Qed.

Section Rows.
Variables (R R' : list (list name)).
Hypothesis P : Permutation R R'.
Lemma transpose_rows (gs : list (list name -> nat)) (Q : list (list name)) : transpose (length Q) (map (fun g => map g Q) gs) = map (fun r => map (fun g => g r) gs) Q.
Proof.
  induction gs as [|g gs IH]; cbn [map transpose].
  - induction Q as [|r Q IH]; [reflexivity|]. cbn [length repeat map]. now f_equal.
  - rewrite IH. clear IH. induction Q as [|r Q IH]; [reflexivity|]. cbn [map combine]. cbn [fst snd]. now f_equal.
Qed.
Lemma fold_min_le l : forall x, fold_left Nat.min l x <= x /\ (forall y, In y l -> fold_left Nat.min l x <= y) /\ (fold_left Nat.min l x = x \/ In (fold_left Nat.min l x) l).
Proof.
  induction l as [|z l IH]; intros x; cbn [fold_left]; [split; [lia|]; split; [intros y []|now left]|]. destruct (IH (Nat.min x z)) as (A & B & C).
  split; [lia|]. split; [intros y [<-|Hy]; [lia|auto]|]. destruct C as [C|C]; [|right; now right]. destruct (Nat.min_spec x z) as [[_ D]|[_ D]]; rewrite D in C |- *; [left; exact C|right; left; now symmetry].
Qed.
Lemma nmin_spec l : l <> [] -> In (nmin_list l) l /\ forall y, In y l -> nmin_list l <= y.
Proof.
  destruct l as [|x l]; [congruence|]. intros _. cbn [nmin_list]. destruct (fold_min_le l x) as (A & B & C). split; [destruct C as [C|C]; [left; now symmetry|now right]|]. intros y [<-|Hy]; auto.
Qed.
Lemma nmin_perm l l' : Permutation l l' -> nmin_list l = nmin_list l'.
Proof.
  intros Q. destruct l as [|x l]; [apply Permutation_nil in Q as ->; reflexivity|].
  assert (N : x :: l <> []) by discriminate. assert (N' : l' <> []) by (intros ->; apply Permutation_sym, Permutation_nil in Q; discriminate).
  destruct (nmin_spec _ N) as [A B], (nmin_spec _ N') as [A' B']. apply Nat.le_antisymm; [apply B, (Permutation_in _ (Permutation_sym Q)), A'|apply B', (Permutation_in _ Q), A].
Qed.
Lemma nmax_perm l l' : Permutation l l' -> nmax_list l = nmax_list l'.
Proof. unfold nmax_list. generalize 0. intros x Q. revert x. induction Q; intros a; cbn [fold_left]; auto; [f_equal; lia|now rewrite IHQ1]. Qed.
Lemma nunique_perm l l' : Permutation l l' -> nunique l = nunique l'.
Proof.
  intros Q. unfold nunique. apply Permutation_length. apply NoDup_Permutation; try apply NoDup_nodup. intros x. rewrite !nodup_In. split; apply Permutation_in; [exact Q|now apply Permutation_sym].
Qed.
Lemma binned_perm n (g : list name -> nat) : exists h : list name -> nat, binned n (map g R) = map h R /\ binned n (map g R') = map h R'.
Proof.
  unfold binned. rewrite <- (nmin_perm (map g R) (map g R')) by now apply Permutation_map. rewrite <- (nmax_perm (map g R) (map g R')) by now apply Permutation_map.
  eexists. rewrite !map_map. split; reflexivity.
Qed.
Lemma length_perm : length R = length R'. Proof. now apply Permutation_length. Qed.
Lemma bins_perm bins (gs : list (list name -> nat)) : exists hs : list (list name -> nat),
  map (fun bc => binned (fst bc) (snd bc)) (combine bins (map (fun g => map g R) gs)) = map (fun h => map h R) hs /\
  map (fun bc => binned (fst bc) (snd bc)) (combine bins (map (fun g => map g R') gs)) = map (fun h => map h R') hs.
Proof.
  revert gs. induction bins as [|b bins IH]; intros [|g gs]; try (exists []; now split). destruct (IH gs) as (hs & E & E'). destruct (binned_perm b g) as (h & F & F').
  exists (h :: hs). cbn [map combine fst snd]. rewrite E, E', F, F'. now split.
Qed.
Lemma hist_perm bins (gs : list (list name -> nat)) : hist (length R) bins (map (fun g => map g R) gs) = hist (length R') bins (map (fun g => map g R') gs).
Proof.
  unfold hist. destruct (existsb (Nat.eqb 0) bins); [reflexivity|]. destruct (bins_perm bins gs) as (hs & E & E'). rewrite E, E', !transpose_rows. f_equal. apply map_ext. intros i.
  assert (F : Permutation (map (fun r => map (fun g => g r) hs) R) (map (fun r => map (fun g => g r) hs) R')) by now apply Permutation_map.
  revert F. generalize (map (fun r => map (fun g => g r) hs) R) (map (fun r => map (fun g => g r) hs) R'). induction 1; cbn [filter]; auto; [destruct (row_eqb i x); cbn [length]; lia|destruct (row_eqb i x), (row_eqb i y); cbn [length]; lia|lia].
Qed.
Lemma merge_perm (gs : list (list name -> nat)) :
  (exists g : list name -> nat, merge (length R) (map (fun g => map g R) gs) = Ok (map g R) /\ merge (length R') (map (fun g => map g R') gs) = Ok (map g R')) \/
  (merge (length R) (map (fun g => map g R) gs) = Raise ValueError /\ merge (length R') (map (fun g => map g R') gs) = Raise ValueError).
Proof.
  unfold merge. rewrite !transpose_rows.
  destruct (mapM_perm (fun r => py_int (join_digits r)) ValueError 0 (map (fun r => map (fun g => g r) gs) R) (map (fun r => map (fun g => g r) gs) R')) as [(h & E & E')|X].
  - intros r. unfold py_int. destruct (join_digits r) as [|c s]; [now right|]. generalize 0. generalize (String c s). clear. intros s. induction s as [|c s IH]; intros a; cbn; [left; eauto|]. destruct (digit c); [apply IH|now right].
  - now apply Permutation_map.
  - left. exists (fun r => h (map (fun g => g r) gs)). rewrite E, E', !map_map. now split.
  - now right.
Qed.
Lemma nuniques_perm (gs : list (list name -> nat)) : map nunique (map (fun g => map g R) gs) = map nunique (map (fun g => map g R') gs).
Proof. rewrite !map_map. apply map_ext. intros g. apply nunique_perm. now apply Permutation_map. Qed.
Lemma nmaxs_perm (gs : list (list name -> nat)) : map nmax_list (map (fun g => map g R) gs) = map nmax_list (map (fun g => map g R') gs).
Proof. rewrite !map_map. apply map_ext. intros g. apply nmax_perm. now apply Permutation_map. Qed.
Lemma amax_perm (gs : list (list name -> nat)) : hist_amax (length R) (map (fun g => map g R) gs) = hist_amax (length R') (map (fun g => map g R') gs).
Proof. unfold hist_amax. cbn zeta. now rewrite hist_perm, nmaxs_perm, length_perm. Qed.
Lemma merge3_perm (gs : list (list name -> nat)) : same_sel R R' (merge3 (length R) (map (fun g => map g R) gs)) (merge3 (length R') (map (fun g => map g R') gs)).
Proof.
  destruct gs as [|x [|y [|z [|z' gs]]]]; [left; exists []; now split|left; exists [x]; now split|left; exists [x; y]; now split|left; exists [x; y; z]; now split|].
  cbn [map merge3]. destruct (merge_perm (z :: z' :: gs)) as [(g & E & E')|[E E']]; cbn [map] in E, E'; rewrite E, E'; cbn [bind]; [left; exists [x; y; g]; now split|right; eexists; now split].
Qed.
End Rows.
