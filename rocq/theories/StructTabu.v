(** StructTabu.v -- lemmas about the model of tabu search and of random restarts. *)
From Verif Require Import Py Num BayesNet SpecFactor Graph SpecGraph GraphTheory GraphTopsort GraphNet GraphFacts GraphCheck Chordal Data SpecLearn ParamLearn
  ParamFacts ParamMain NaiveFacts HeapEdit SpecScore StructScore StructFacts Properties_Graph.
Open Scope nat_scope.

Lemma move_eqb_eq a b : move_eqb a b = true <-> a = b.
Proof.
  destruct a as [k [u v]], b as [k' [u' v']]. unfold move_eqb, edge_eqb. cbn [fst snd]. rewrite !andb_true_iff, !name_eqb_eq.
  destruct k, k'; cbn [op_eqb]; split; intros H; try (destruct H as (H & H1 & H2); try discriminate H; now subst); try (inversion H; subst; auto).
Qed.
Lemma in_tabu_In tl m : in_tabu tl m = true <-> In (Some m) tl.
Proof.
  unfold in_tabu. rewrite existsb_exists. split.
  - intros ([y|] & H & E); [|discriminate]. apply move_eqb_eq in E. now subst.
  - intros H. exists (Some m). split; [exact H|]. now apply move_eqb_eq.
Qed.
(** the tabu list after the moves [past], latest first *)
Fixpoint tl_of (k : nat) (past : list move) : list (option move) :=
  match past with [] => repeat None k | m :: r => upd_nth (length r mod 5) (Some m) (tl_of k r) end.
Lemma tl_of_length k past : length (tl_of k past) = k.
Proof. induction past as [|m r IH]; cbn [tl_of]; [apply repeat_length|now rewrite upd_nth_length]. Qed.
Lemma tl_of_slot k past j : 5 <= k -> j < 5 -> nth_error (tl_of k past) j = Some (nth_error past ((length past + 4 - j) mod 5)).
Proof.
  intros K J. induction past as [|m r IH]; cbn [tl_of length].
  - assert (j < k) by lia. rewrite nth_error_repeat by assumption. now destruct ((0 + 4 - j) mod 5).
  - rewrite nth_error_upd_nth, tl_of_length. destruct (Nat.eqb_spec (length r mod 5) j) as [E|N].
    + assert (length r mod 5 < k) by (pose proof (Nat.mod_upper_bound (length r) 5); lia). apply Nat.ltb_lt in H. rewrite H. cbn [andb].
      assert ((S (length r) + 4 - j) mod 5 = 0) as ->; [|reflexivity].
      replace (S (length r) + 4 - j) with ((length r / 5 + 1) * 5) by (pose proof (Nat.div_mod (length r) 5 ltac:(lia)); lia).
      apply Nat.mod_mul. lia.
    + cbn [andb]. rewrite IH. f_equal.
      assert (E : (S (length r) + 4 - j) mod 5 = S ((length r + 4 - j) mod 5)); [|now rewrite E].
      set (n := length r) in *. pose proof (Nat.div_mod n 5 ltac:(lia)) as D. pose proof (Nat.mod_upper_bound n 5 ltac:(lia)) as B.
      set (q := n / 5) in *. set (x := n mod 5) in *.
      destruct (le_lt_dec j x) as [L|L].
      * replace (S n + 4 - j) with (x - j + (q + 1) * 5) by lia. rewrite Nat.mod_add by lia.
        replace (n + 4 - j) with (x - j - 1 + (q + 1) * 5) by lia. rewrite Nat.mod_add by lia.
        rewrite !Nat.mod_small by lia. lia.
      * replace (S n + 4 - j) with (x + 5 - j + q * 5) by lia. rewrite Nat.mod_add by lia.
        replace (n + 4 - j) with (x + 4 - j + q * 5) by lia. rewrite Nat.mod_add by lia.
        rewrite !Nat.mod_small by lia. lia.
Qed.
Lemma tl_of_high k past j : 5 <= k -> 5 <= j -> j < k -> nth_error (tl_of k past) j = Some None.
Proof.
  intros K J L. induction past as [|m r IH]; cbn [tl_of].
  - now rewrite nth_error_repeat.
  - rewrite nth_error_upd_nth. destruct (Nat.eqb_spec (length r mod 5) j) as [E|N]; [|exact IH].
    pose proof (Nat.mod_upper_bound (length r) 5). lia.
Qed.
Lemma In_firstn {A} (x : A) n l : In x (firstn n l) <-> exists i, i < n /\ nth_error l i = Some x.
Proof.
  revert l. induction n as [|n IH]; intros [|y l]; cbn [firstn In].
  - split; [intros []|intros (i & H & _); lia].
  - split; [intros []|intros (i & H & _); lia].
  - split; [intros []|intros ([|i] & _ & H); discriminate].
  - rewrite IH. split.
    + intros [->|(i & L & H)]; [exists 0|exists (S i)]; split; auto; lia.
    + intros ([|i] & L & H); [left; now inversion H|right; exists i; split; [lia|exact H]].
Qed.
Lemma tl_of_In k past m : 5 <= k -> (In (Some m) (tl_of k past) <-> In m (firstn 5 past)).
Proof.
  intros K. rewrite In_firstn. split.
  - intros H. apply In_nth_error in H as (j & H). destruct (le_lt_dec 5 j) as [L|L].
    + assert (j < k) by (rewrite <- (tl_of_length k past); apply nth_error_Some; congruence). rewrite tl_of_high in H by assumption. discriminate.
    + rewrite tl_of_slot in H by assumption. inversion H. exists ((length past + 4 - j) mod 5). split; [apply Nat.mod_upper_bound; lia|reflexivity].
  - intros (l & L & H). assert (Ll : l < length past) by (apply nth_error_Some; congruence).
    apply nth_error_In with ((length past + 4 - l) mod 5). rewrite tl_of_slot by (try apply Nat.mod_upper_bound; lia).
    f_equal. rewrite <- H. f_equal. set (n := length past) in *. pose proof (Nat.div_mod (n + 4 - l) 5 ltac:(lia)) as D.
    pose proof (Nat.mod_upper_bound (n + 4 - l) 5 ltac:(lia)) as B. set (y := (n + 4 - l) mod 5) in *. set (q := (n + 4 - l) / 5) in *.
    replace (n + 4 - y) with (l + q * 5) by lia. rewrite Nat.mod_add by lia. apply Nat.mod_small. lia.
Qed.
Lemma tabu_ok_free tl w past m : (forall m0, In (Some m0) tl <-> In m0 (firstn w past)) -> (tabu_ok tl m = true <-> free w past m).
Proof.
  intros H. unfold tabu_ok, free. destruct m as [k a].
  assert (Z : forall k' , negb (in_tabu tl (k', a)) = true <-> ~ In (k', a) (firstn w past)).
  { intros k'. rewrite negb_true_iff, <- not_true_iff_false, in_tabu_In, H. tauto. }
  destruct k; rewrite Z; split.
  - intros N [k0 b] I F. destruct k0; cbn [forbids] in F; try tauto. now subst.
  - intros F I. apply (F _ I). reflexivity.
  - intros N [k0 b] I F. destruct k0; cbn [forbids] in F; try tauto. now subst.
  - intros F I. apply (F _ I). reflexivity.
  - intros N [k0 b] I F. destruct k0; cbn [forbids] in F; try tauto. now subst.
  - intros F I. apply (F _ I). reflexivity.
Qed.

Lemma tabu_apply_ok debug g tl i m g' : apply_move debug g m = Ok g' -> (i mod 5 < length tl \/ carried debug m = false) ->
  tabu_apply debug g tl i m = Ok (g', if carried debug m then upd_nth (i mod 5) (Some m) tl else tl).
Proof.
  intros E H. unfold tabu_apply. rewrite E. cbn [bind]. destruct m as [k a]. unfold carried in *. cbn [fst] in *. unfold tabu_set.
  destruct k, debug; try reflexivity; (destruct H as [H|H]; [|discriminate]); apply Nat.ltb_lt in H; rewrite H; reflexivity.
Qed.
Lemma tabu_apply_bad debug g tl i m g' : apply_move debug g m = Ok g' -> length tl <= i mod 5 -> carried debug m = true ->
  tabu_apply debug g tl i m = Raise IndexError.
Proof.
  intros E H C. unfold tabu_apply. rewrite E. cbn [bind]. destruct m as [k a]. unfold carried in *. cbn [fst] in *. unfold tabu_set.
  apply Nat.ltb_ge in H. destruct k, debug; try discriminate; rewrite H; reflexivity.
Qed.
Section Tabu.
  Context (mi : score) (nrow : nat) (debug : bool) (r : option (list (name * name))) (nodes : list name).
  Definition t_can (past : list move) (g : gstate) (m : move) : Prop := legal nodes r (edge (g_c g)) m /\ free 5 past m.
  Definition t_chosen past g m := best_of (t_can past g) (gains mi nrow (g_p g)) m.
  Definition t_finished past g := none_better (t_can past g) (gains mi nrow (g_p g)).
  (** after a reversal that is not carried out, the same pass is repeated until the limit *)
  Lemma tabu_stuck g tl d a : debug = false -> scan mi nrow (tabu_ok tl) r nodes g = Ok (Some (d, (Reversal, a))) ->
    forall passes i, tabu_loop passes i mi nrow debug r nodes g tl = Ok (repeat (g, (Reversal, a)) passes, g).
  Proof.
    intros Db E. induction passes as [|n IH]; intros i; cbn [tabu_loop]; [reflexivity|]. rewrite E. cbn [bind].
    assert (A : apply_move debug g (Reversal, a) = Ok g) by (rewrite Db; destruct a; reflexivity).
    assert (Cd : carried debug (Reversal, a) = false) by (rewrite Db; reflexivity).
    rewrite (tabu_apply_ok _ _ _ _ _ _ A) by (now right). cbn [bind fst snd]. rewrite Cd. rewrite IH. reflexivity.
  Qed.
  Lemma t_best k past tl g : 5 <= k -> search_graph nodes g -> tl = tl_of k past ->
    match scan mi nrow (tabu_ok tl) r nodes g with
    | Ok b => good_best (t_can past g) (gains mi nrow (g_p g)) b
    | Raise e => exists cols, mi cols = Raise e
    end.
  Proof.
    intros K SG ->. pose proof (scan_ok mi nrow (tabu_ok (tl_of k past)) r nodes g SG) as Sc. destruct (scan _ _ _ _ _ _) as [b|e]; [|exact Sc].
    revert Sc. apply good_best_ext. intros m. unfold t_can. rewrite (tabu_ok_free _ 5 past); [tauto|]. intros m0. now apply tl_of_In.
  Qed.
  Lemma stuck_climb past g a : debug = false -> t_chosen past g (Reversal, a) ->
    forall n, tabu_climb debug t_chosen (stepped nodes debug) t_finished n past g (repeat (g, (Reversal, a)) n) g.
  Proof.
    intros Db H. induction n as [|n IH]; cbn [repeat]; [constructor|]. apply tabu_step with g; [exact H| |].
    - unfold stepped. rewrite Db. reflexivity.
    - assert (Cd : carried debug (Reversal, a) = false) by (rewrite Db; reflexivity). now rewrite Cd.
  Qed.
  Lemma tabu_loop_ok k : 5 <= k -> forall passes past g, search_graph nodes g ->
    match tabu_loop passes (length past) mi nrow debug r nodes g (tl_of k past) with
    | Ok (log, g') => search_graph nodes g' /\ tabu_climb debug t_chosen (stepped nodes debug) t_finished passes past g log g'
    | Raise e => exists cols, mi cols = Raise e
    end.
  Proof.
    intros K. induction passes as [|n IH]; intros past g SG; cbn [tabu_loop]; [split; [exact SG|constructor]|].
    pose proof (t_best k past (tl_of k past) g K SG eq_refl) as Sc.
    destruct (scan mi nrow (tabu_ok (tl_of k past)) r nodes g) as [b|e] eqn:Es; cbn [bind]; [|exact Sc]. destruct b as [[d m]|].
    - apply good_best_Some in Sc. destruct (apply_move_ok nodes r debug g m SG (proj1 (proj1 Sc))) as (g1 & E1 & St & SG1).
      assert (Lt : length past mod 5 < length (tl_of k past)) by (rewrite tl_of_length; pose proof (Nat.mod_upper_bound (length past) 5); lia).
      rewrite (tabu_apply_ok _ _ _ _ _ _ E1) by (now left). cbn [bind fst snd]. destruct (carried debug m) eqn:Cm.
      + specialize (IH (m :: past) g1 SG1). cbn [length tl_of] in IH.
        destruct (tabu_loop n (S (length past)) mi nrow debug r nodes g1 _) as [[log g']|e]; cbn [bind fst snd]; [|exact IH].
        destruct IH as [A B]. split; [exact A|]. apply tabu_step with g1; [exact Sc|exact St|]. now rewrite Cm.
      + destruct m as [k0 a]. unfold carried in Cm. cbn [fst] in Cm. destruct k0; try discriminate.
        assert (g1 = g) as -> by (unfold stepped in St; rewrite Cm in St; exact St).
        rewrite (tabu_stuck g _ d a Cm Es). cbn [bind fst snd]. split; [exact SG|]. change ((g, (Reversal, a)) :: repeat (g, (Reversal, a)) n) with (repeat (g, (Reversal, a)) (S n)).
        now apply stuck_climb.
    - split; [exact SG|]. now apply tabu_finished.
  Qed.
  (** a short tabu list: the first k moves are those of a long one *)
  Lemma tl_short k past : k < 5 -> length past <= k -> tl_of 5 past = tl_of k past ++ repeat None (5 - k).
  Proof.
    intros K. induction past as [|m s IH]; cbn [tl_of length]; intros L.
    - rewrite <- repeat_app. f_equal. lia.
    - rewrite IH by lia. rewrite Nat.mod_small by lia. assert (Lt : length s < length (tl_of k s)) by (rewrite tl_of_length; lia).
      revert Lt. generalize (tl_of k s). generalize (length s). intros n t. revert n. induction t as [|x t IHt]; intros n Lt; cbn [length] in Lt; [lia|].
      destruct n as [|n]; cbn [upd_nth app]; [reflexivity|]. f_equal. apply IHt. lia.
  Qed.
  Lemma scan_ext ok ok' g : (forall m, ok m = ok' m) -> scan mi nrow ok r nodes g = scan mi nrow ok' r nodes g.
  Proof.
    intros H. unfold scan.
    assert (E1 : forall l b, foldM (try_add mi nrow ok r g) l b = foldM (try_add mi nrow ok' r g) l b).
    { induction l as [|[u v] l IH]; intros b; cbn [foldM]; [reflexivity|]. unfold try_add at 1 3. rewrite H. destruct (negb _); cbn [bind]; [apply IH|].
      match goal with |- bind ?x _ = _ => destruct x; cbn [bind]; [apply IH|reflexivity] end. }
    assert (E2 : forall l b, foldM (try_del mi nrow ok g) l b = foldM (try_del mi nrow ok' g) l b).
    { induction l as [|[u v] l IH]; intros b; cbn [foldM]; [reflexivity|]. unfold try_del at 1 3. rewrite H. destruct (negb _); cbn [bind]; [apply IH|].
      match goal with |- bind ?x _ = _ => destruct x; cbn [bind]; [apply IH|reflexivity] end. }
    assert (E3 : forall l b, foldM (try_rev mi nrow ok g) l b = foldM (try_rev mi nrow ok' g) l b).
    { induction l as [|[u v] l IH]; intros b; cbn [foldM]; [reflexivity|]. unfold try_rev at 1 3. rewrite H. destruct (negb _); cbn [bind]; [apply IH|].
      match goal with |- bind ?x _ = _ => destruct x; cbn [bind]; [apply IH|reflexivity] end. }
    rewrite E1. destruct (foldM (try_add mi nrow ok' r g) _ _); cbn [bind]; [|reflexivity]. rewrite E2.
    destruct (foldM (try_del mi nrow ok' g) _ _); cbn [bind]; [|reflexivity]. apply E3.
  Qed.
  Lemma tabu_short_ok k past m : k < 5 -> length past <= k -> tabu_ok (tl_of k past) m = tabu_ok (tl_of 5 past) m.
  Proof.
    intros K L. rewrite (tl_short k past K L). unfold tabu_ok, in_tabu.
    assert (Z : forall x, existsb (fun y => match y with Some z => move_eqb z x | None => false end) (repeat None (5 - k)) = false).
    { intros x. induction (5 - k) as [|j IH]; cbn [repeat existsb]; [reflexivity|exact IH]. }
    destruct m as [[] a]; rewrite existsb_app, Z, orb_false_r; reflexivity.
  Qed.
  Definition ncarried (log : list (gstate * move)) : nat := length (filter (fun gm => carried debug (snd gm)) log).
  Lemma ncarried_stuck g a n : debug = false -> ncarried (repeat (g, (Reversal, a)) n) = 0.
  Proof. intros Db. unfold ncarried. assert (Cd : carried debug (Reversal, a) = false) by (rewrite Db; reflexivity). induction n as [|n IH]; cbn [repeat filter snd]; [reflexivity|]. rewrite Cd. exact IH. Qed.
  Lemma tabu_short k : k < 5 -> forall passes past g log g', search_graph nodes g -> length past <= k ->
    tabu_loop passes (length past) mi nrow debug r nodes g (tl_of 5 past) = Ok (log, g') ->
    tabu_loop passes (length past) mi nrow debug r nodes g (tl_of k past) =
      if length past + ncarried log <=? k then Ok (log, g') else Raise IndexError.
  Proof.
    intros K. induction passes as [|n IH]; intros past g log g' SG Lp; cbn [tabu_loop].
    - intros E. inversion E; subst. unfold ncarried. cbn [filter length]. rewrite Nat.add_0_r. apply Nat.leb_le in Lp. now rewrite Lp.
    - rewrite (scan_ext _ _ g (fun m => tabu_short_ok k past m K Lp)).
      pose proof (t_best 5 past (tl_of 5 past) g (le_n 5) SG eq_refl) as Sc.
      destruct (scan mi nrow (tabu_ok (tl_of 5 past)) r nodes g) as [b|e] eqn:Es; cbn [bind]; [|discriminate]. destruct b as [[d m]|].
      2:{ intros E. inversion E; subst. unfold ncarried. cbn [filter length]. rewrite Nat.add_0_r. apply Nat.leb_le in Lp. now rewrite Lp. }
      apply good_best_Some in Sc. destruct (apply_move_ok nodes r debug g m SG (proj1 (proj1 Sc))) as (g1 & E1 & St & SG1).
      assert (L5 : length past mod 5 < length (tl_of 5 past)) by (rewrite tl_of_length; apply Nat.mod_upper_bound; lia).
      rewrite (tabu_apply_ok debug g (tl_of 5 past) _ _ _ E1) by (now left). cbn [bind fst snd]. destruct (carried debug m) eqn:Cm.
      + destruct (Nat.eq_dec (length past) k) as [Ek|Nk].
        * rewrite (tabu_apply_bad debug g (tl_of k past) _ _ _ E1) by (try assumption; rewrite tl_of_length, Nat.mod_small; lia). cbn [bind].
          destruct (tabu_loop n (S (length past)) mi nrow debug r nodes g1 _) as [[lg gg]|e]; cbn [bind fst snd]; [|discriminate].
          intros E. inversion E; subst. unfold ncarried. cbn [filter snd]. rewrite Cm. cbn [length].
          match goal with |- _ = if ?b then _ else _ => destruct b eqn:B end; [apply Nat.leb_le in B; lia|reflexivity].
        * rewrite (tabu_apply_ok debug g (tl_of k past) _ _ _ E1) by (left; rewrite tl_of_length, Nat.mod_small; lia). cbn [bind fst snd]. rewrite Cm.
          specialize (IH (m :: past) g1). cbn [length tl_of] in IH.
          destruct (tabu_loop n (S (length past)) mi nrow debug r nodes g1 (upd_nth _ _ (tl_of 5 past))) as [[lg gg]|e]; cbn [bind fst snd]; [|discriminate].
          intros E. inversion E; subst. rewrite (IH lg g' SG1 ltac:(lia) eq_refl). unfold ncarried. cbn [filter snd]. rewrite Cm. cbn [length].
          rewrite <- Nat.add_succ_comm. destruct (_ <=? k); reflexivity.
      + destruct m as [k0 a]. unfold carried in Cm. cbn [fst] in Cm. destruct k0; try discriminate.
        assert (Cd : carried debug (Reversal, a) = false) by exact Cm.
        rewrite (tabu_apply_ok debug g (tl_of k past) _ _ _ E1) by (now right). cbn [bind fst snd]. rewrite Cd.
        assert (g1 = g) as -> by (unfold stepped in St; rewrite Cm in St; exact St).
        rewrite (tabu_stuck g _ d a Cm Es). cbn [bind fst snd].
        assert (Es' : scan mi nrow (tabu_ok (tl_of k past)) r nodes g = Ok (Some (d, (Reversal, a)))).
        { rewrite (scan_ext _ (tabu_ok (tl_of 5 past))); [exact Es|]. intros m. now apply tabu_short_ok. }
        rewrite (tabu_stuck g _ d a Cm Es'). cbn [bind fst snd]. intros E. inversion E; subst.
        change ((g', (Reversal, a)) :: repeat (g', (Reversal, a)) n) with (repeat (g', (Reversal, a)) (S n)).
        rewrite ncarried_stuck by assumption. rewrite Nat.add_0_r. apply Nat.leb_le in Lp. now rewrite Lp.
  Qed.
End Tabu.

(** ** random restarts *)
Lemma admissible_ok nodes g k u v : search_graph nodes g -> In u nodes -> In v nodes ->
  exists b, admissible g k u v = Ok b /\ (b = true <-> legal nodes None (edge (g_c g)) (k, (u, v))).
Proof.
  intros SG Hu Hv. destruct (key_p _ _ SG v Hv) as (p & Dp & Np & Ip & Mp). unfold admissible. rewrite (getitem_Some _ _ _ Dp). cbn [bind]. cbn [legal]. destruct k.
  - destruct (mem u p) eqn:Em.
    + exists false. split; [reflexivity|]. split; [discriminate|]. intros (_ & _ & _ & N & _). exfalso. now apply N, Mp.
    + destruct (name_eqb_spec u v) as [->|N].
      * exists false. split; [reflexivity|]. split; [discriminate|]. intros (_ & _ & N & _). now destruct N.
      * destruct (C35_add (g_c g) u v (sg_acyclic _ _ SG)) as (cyc & Ec & Hc). rewrite Ec. cbn [bind]. exists (negb cyc). split; [reflexivity|].
        rewrite negb_true_iff, no_cycle_neg. change (after (edge (g_c g)) (Addition, (u, v))) with (fun x y => edge (g_c g) x y \/ x = u /\ y = v).
        rewrite <- Hc, not_true_iff_false. split; [|tauto]. intros H. split; [exact Hu|]. split; [exact Hv|]. split; [exact N|]. split; [|split; [exact Logic.I|exact H]].
        intros E. apply Mp in E. congruence.
  - exists (mem u p). split; [reflexivity|]. rewrite Mp. tauto.
  - destruct (mem u p) eqn:Em.
    + assert (Euv : edge (g_c g) u v) by now apply Mp. destruct (C35_reverse (g_c g) v u (sg_acyclic _ _ SG) Euv) as (cyc & Ec & Hc). rewrite Ec. cbn [bind].
      exists (negb cyc). split; [reflexivity|]. rewrite negb_true_iff, no_cycle_neg.
      change (after (edge (g_c g)) (Reversal, (u, v))) with (fun x y => (edge (g_c g) x y /\ ~ (x = u /\ y = v)) \/ (x = v /\ y = u)).
      rewrite <- Hc, not_true_iff_false. tauto.
    + exists false. split; [reflexivity|]. split; [discriminate|]. intros (_ & _ & E & _). apply Mp in E. congruence.
Qed.
Lemma rr_move_ok nodes s k g : search_graph nodes g -> valid_draws nodes s -> forall fuel n,
  match rr_move fuel nodes s n k g with
  | Ok (g', _) => exists u v, legal nodes None (edge (g_c g)) (k, (u, v)) /\ made nodes g (k, (u, v)) g'
  | Raise e => (e = ValueError /\ length nodes < 2) \/ (e = OutOfFuel /\ forall i, i < fuel -> ~ legal nodes None (edge (g_c g)) (k, (d_u (s (n + i)), d_v (s (n + i)))))
  end.
Proof.
  intros SG VD. induction fuel as [|f IH]; intros n; cbn [rr_move]; [right; split; [reflexivity|lia]|].
  destruct (Nat.ltb_spec (length nodes) 2) as [L|L]; [left; auto|].
  destruct (VD L n) as (Hu & Hv & _). destruct (admissible_ok nodes g k (d_u (s n)) (d_v (s n)) SG Hu Hv) as (b & Eb & Hb). rewrite Eb. cbn [bind]. destruct b.
  - assert (Lg : legal nodes None (edge (g_c g)) (k, (d_u (s n), d_v (s n)))) by now apply Hb.
    assert (X : exists g', (match k with Addition => g_add g (d_u (s n)) (d_v (s n)) | Deletion => g_del g (d_u (s n)) (d_v (s n)) | Reversal => g_rev g (d_u (s n)) (d_v (s n)) end) = Ok g'
               /\ made nodes g (k, (d_u (s n), d_v (s n))) g').
    { destruct (apply_move_ok nodes None true g _ SG Lg) as (g' & E & St & _). exists g'. split; [|exact St]. destruct k; exact E. }
    destruct X as (g' & E & M). rewrite E. cbn [bind]. eauto.
  - specialize (IH (S n)). destruct (rr_move f nodes s (S n) k g) as [[g' n']|e]; [exact IH|]. destruct IH as [IH|[-> IH]]; [now left|].
    right. split; [reflexivity|]. intros [|i] Hi.
    + rewrite Nat.add_0_r. intros Lg. apply Hb in Lg. discriminate.
    + replace (n + S i) with (S n + i) by lia. apply IH. lia.
Qed.
Lemma rr_moves_ok nodes s fuel : valid_draws nodes s -> forall M n g, search_graph nodes g ->
  match rr_moves fuel nodes s n M g with
  | Ok (g', _) => search_graph nodes g'
  | Raise e => (e = ValueError /\ length nodes < 2) \/ (e = OutOfFuel /\ waiting nodes fuel s)
  end.
Proof.
  intros VD. induction M as [|M IH]; intros n g SG; cbn [rr_moves]; [exact SG|].
  pose proof (rr_move_ok nodes s (d_op (s n)) g SG VD fuel (S n)) as H.
  destruct (rr_move fuel nodes s (S n) (d_op (s n)) g) as [[g1 n1]|e]; cbn [bind fst snd].
  - destruct H as (u & v & _ & [SG1 _]). apply IH. exact SG1.
  - destruct H as [H|[-> H]]; [now left|]. right. split; [reflexivity|]. exists g, (S n), (d_op (s n)). auto.
Qed.
Lemma rr_loop_ok mi nrow debug r nodes s fuel max_iter R M : valid_draws nodes s ->
  forall passes n iter restarts g, search_graph nodes g -> restarts <= R -> iter <= max_iter ->
  (R - restarts) * S max_iter + (S max_iter - iter) <= passes ->
  match rr_loop passes fuel s n mi nrow max_iter R M debug r nodes iter restarts g with
  | Ok g' => search_graph nodes g'
  | Raise e => (exists cols, mi cols = Raise e) \/ (e = ValueError /\ length nodes < 2) \/ (e = OutOfFuel /\ waiting nodes fuel s)
  end.
Proof.
  intros VD. induction passes as [|k IH]; intros n iter restarts g SG Hr Hi Hp.
  { exfalso. revert Hp. generalize ((R - restarts) * S max_iter). intros; lia. }
  cbn [rr_loop]. pose proof (scan_ok mi nrow (fun _ => true) r nodes g SG) as Sc.
  destruct (scan mi nrow (fun _ => true) r nodes g) as [b|e]; cbn [bind]; [|now left]. apply good_best_true in Sc. destruct b as [[d m]|].
  - apply good_best_Some in Sc. destruct (apply_move_ok nodes r debug g m SG (proj1 Sc)) as (g1 & E1 & _ & SG1). rewrite E1. cbn [bind].
    destruct (Nat.ltb_spec max_iter (S iter)) as [L|L]; [exact SG1|]. apply IH; [assumption|assumption|lia|]. revert Hp. generalize ((R - restarts) * S max_iter). intros; lia.
  - destruct (Nat.ltb_spec restarts R) as [L|L]; [|exact SG].
    pose proof (rr_moves_ok nodes s fuel VD M n g SG) as H. destruct (rr_moves fuel nodes s n M g) as [[g1 n1]|e]; cbn [bind fst snd].
    + destruct (Nat.ltb_spec max_iter 1) as [L1|L1]; [exact H|]. apply IH; [assumption|lia|lia|].
      assert (E : R - restarts = S (R - S restarts)) by lia. rewrite E in Hp. cbn [Nat.mul] in Hp. revert Hp. generalize ((R - S restarts) * S max_iter). intros; lia.
    + now right.
Qed.
(** a random deletion (or reversal) in a graph without edges: no pair is ever admissible *)
Lemma rr_hang nodes s k g : search_graph nodes g -> valid_draws nodes s -> 2 <= length nodes -> k <> Addition -> (forall u v, ~ edge (g_c g) u v) ->
  forall fuel n, rr_move fuel nodes s n k g = Raise OutOfFuel.
Proof.
  intros SG VD L K NE. induction fuel as [|f IH]; intros n; cbn [rr_move]; [reflexivity|].
  destruct (Nat.ltb_spec (length nodes) 2) as [L'|_]; [lia|]. destruct (VD L n) as (Hu & Hv & _).
  destruct (admissible_ok nodes g k (d_u (s n)) (d_v (s n)) SG Hu Hv) as (b & Eb & Hb). rewrite Eb. cbn [bind]. destruct b; [|apply IH].
  exfalso. destruct Hb as [Hb _]. specialize (Hb eq_refl). destruct k; [now apply K| |]; destruct Hb as (_ & _ & Hb); [now apply NE in Hb|destruct Hb as [Hb _]; now apply NE in Hb].
Qed.
(** a longer tabu list makes no difference *)
Lemma tabu_long mi nrow debug r nodes k : 5 <= k -> forall passes past g, search_graph nodes g ->
  tabu_loop passes (length past) mi nrow debug r nodes g (tl_of k past) = tabu_loop passes (length past) mi nrow debug r nodes g (tl_of 5 past).
Proof.
  intros K. induction passes as [|n IH]; intros past g SG; cbn [tabu_loop]; [reflexivity|].
  assert (X : forall m, tabu_ok (tl_of k past) m = tabu_ok (tl_of 5 past) m).
  { intros m. apply eq_true_iff_eq. rewrite (tabu_ok_free _ 5 past) by (intros; now apply tl_of_In). rewrite (tabu_ok_free _ 5 past) by (intros; now apply tl_of_In). reflexivity. }
  rewrite (scan_ext _ _ _ _ _ _ g X). pose proof (t_best mi nrow r nodes 5 past (tl_of 5 past) g (le_n 5) SG eq_refl) as Sc.
  destruct (scan mi nrow (tabu_ok (tl_of 5 past)) r nodes g) as [b|e] eqn:Es; cbn [bind]; [|reflexivity]. destruct b as [[d m]|]; [|reflexivity].
  apply good_best_Some in Sc. destruct (apply_move_ok nodes r debug g m SG (proj1 (proj1 Sc))) as (g1 & E1 & St & SG1).
  assert (B : length past mod 5 < 5) by (apply Nat.mod_upper_bound; lia).
  rewrite (tabu_apply_ok debug g (tl_of 5 past) _ _ _ E1) by (left; rewrite tl_of_length; lia).
  rewrite (tabu_apply_ok debug g (tl_of k past) _ _ _ E1) by (left; rewrite tl_of_length; lia). cbn [bind fst snd]. destruct (carried debug m) eqn:Cm.
  - specialize (IH (m :: past) g1 SG1). cbn [length tl_of] in IH. now rewrite IH.
  - destruct m as [k0 a]. unfold carried in Cm. cbn [fst] in Cm. destruct k0; try discriminate.
    assert (g1 = g) as -> by (unfold stepped in St; rewrite Cm in St; exact St).
    rewrite (tabu_stuck mi nrow debug r nodes g _ d a Cm Es).
    rewrite (tabu_stuck mi nrow debug r nodes g _ d a Cm); [reflexivity|]. rewrite (scan_ext _ _ _ _ _ _ g X). exact Es.
Qed.
