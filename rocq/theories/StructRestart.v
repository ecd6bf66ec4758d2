(** StructRestart.v -- hill climbing with random restarts, taken apart into climbs and random walks. *)
From Verif Require Import Py Num BayesNet SpecFactor Graph SpecGraph GraphTheory GraphNet Data SpecLearn ParamLearn SpecScore StructScore StructFacts StructTabu SpecClimb StructClimb.
Open Scope nat_scope.

Lemma rr_move_draw nodes s k g : search_graph nodes g -> valid_draws nodes s -> forall fuel n g' n', rr_move fuel nodes s n k g = Ok (g', n') ->
  exists j, n <= j /\ n' = S j /\ (forall i, n <= i -> i < j -> ~ legal nodes None (edge (g_c g)) (k, (d_u (s i), d_v (s i)))) /\
    legal nodes None (edge (g_c g)) (k, (d_u (s j), d_v (s j))) /\ made nodes g (k, (d_u (s j), d_v (s j))) g'.
Proof.
  intros SG VD. induction fuel as [|f IH]; intros n g' n'; cbn [rr_move]; [discriminate|].
  destruct (Nat.ltb_spec (length nodes) 2) as [L|L]; [discriminate|].
  destruct (VD L n) as (Hu & Hv & _). destruct (admissible_ok nodes g k (d_u (s n)) (d_v (s n)) SG Hu Hv) as (b & Eb & Hb). rewrite Eb. cbn [bind]. destruct b.
  - assert (Lg : legal nodes None (edge (g_c g)) (k, (d_u (s n), d_v (s n)))) by now apply Hb.
    destruct (apply_move_ok nodes None true g _ SG Lg) as (g1 & E & St & _). intros Q. exists n.
    assert (X : (match k with Addition => g_add g (d_u (s n)) (d_v (s n)) | Deletion => g_del g (d_u (s n)) (d_v (s n)) | Reversal => g_rev g (d_u (s n)) (d_v (s n)) end) = Ok g1) by (destruct k; exact E).
    rewrite X in Q. cbn [bind] in Q. inversion Q; subst. split; [lia|]. split; [reflexivity|]. split; [intros; lia|]. split; [exact Lg|exact St].
  - intros Q. destruct (IH (S n) g' n' Q) as (j & Lj & -> & No & Lg & Md). exists j. split; [lia|]. split; [reflexivity|]. split; [|split; [exact Lg|exact Md]].
    intros i Li Ui. destruct (Nat.eq_dec i n) as [-> |Ni]; [|apply No; lia]. intros Lx. apply Hb in Lx. discriminate.
Qed.
Lemma rr_moves_walk nodes s fuel : valid_draws nodes s -> forall M n g g' n', search_graph nodes g -> rr_moves fuel nodes s n M g = Ok (g', n') ->
  random_walk nodes s M n g n' g' /\ search_graph nodes g'.
Proof.
  intros VD. induction M as [|M IH]; intros n g g' n' SG; cbn [rr_moves].
  - intros E. inversion E; subst. split; [constructor|exact SG].
  - destruct (rr_move fuel nodes s (S n) (d_op (s n)) g) as [[g1 n1]|e] eqn:E1; cbn [bind fst snd]; [|discriminate]. intros E.
    destruct (rr_move_draw _ _ _ _ SG VD _ _ _ _ E1) as (j & Lj & -> & No & Lg & Md). destruct (IH (S j) g1 g' n' (proj1 Md) E) as [W SG'].
    split; [|exact SG']. apply walk_move with j g1; [lia|intros i Li Ui; apply No; lia|exact Lg|exact Md|exact W].
Qed.
Section Segments.
  Context (mi : score) (nrow : nat) (debug : bool) (r : option (list (name * name))) (nodes : list name) (s : nat -> draw) (fuel max_iter M : nat).
  Inductive rr_segs : nat -> nat -> nat -> gstate -> gstate -> Prop :=
  | seg_limit R b n g log g' : hc_loop b mi nrow debug r nodes g = Ok (log, g') -> length log = b -> rr_segs R b n g g'
  | seg_last b n g log g' : hc_loop b mi nrow debug r nodes g = Ok (log, g') -> length log < b -> rr_segs 0 b n g g'
  | seg_again R b n g log g1 n2 g2 g' : hc_loop b mi nrow debug r nodes g = Ok (log, g1) -> length log < b ->
      rr_moves fuel nodes s n M g1 = Ok (g2, n2) -> rr_segs R max_iter n2 g2 g' -> rr_segs (S R) b n g g'.
  Lemma seg_step R b n g d m g1 g' : scan mi nrow (fun _ => true) r nodes g = Ok (Some (d, m)) -> apply_move debug g m = Ok g1 -> rr_segs R b n g1 g' -> rr_segs R (S b) n g g'.
  Proof.
    intros Es Ea H. assert (X : forall log gx, hc_loop b mi nrow debug r nodes g1 = Ok (log, gx) -> hc_loop (S b) mi nrow debug r nodes g = Ok ((g, m) :: log, gx)).
    { intros log gx E. cbn [hc_loop]. rewrite Es. cbn [bind]. rewrite Ea. cbn [bind]. rewrite E. reflexivity. }
    destruct H as [R b n g1 log g' E L|b n g1 log g' E L|R b n g1 log g2 n2 g3 g' E L W H].
    - apply seg_limit with ((g, m) :: log); [now apply X|cbn [length]; lia].
    - apply seg_last with ((g, m) :: log); [now apply X|cbn [length]; lia].
    - apply seg_again with ((g, m) :: log) g2 n2 g3; [now apply X|cbn [length]; lia|exact W|exact H].
  Qed.
  Lemma rr_loop_segs R : valid_draws nodes s -> forall passes n iter restarts g g', search_graph nodes g -> restarts <= R -> iter <= max_iter ->
    rr_loop passes fuel s n mi nrow max_iter R M debug r nodes iter restarts g = Ok g' -> rr_segs (R - restarts) (S max_iter - iter) n g g'.
  Proof.
    intros VD. induction passes as [|k IH]; intros n iter restarts g g' SG Hr Hi; cbn [rr_loop]; [discriminate|].
    pose proof (scan_ok mi nrow (fun _ => true) r nodes g SG) as Sc.
    destruct (scan mi nrow (fun _ => true) r nodes g) as [b|e] eqn:Es; cbn [bind]; [|discriminate]. apply good_best_true in Sc. destruct b as [[d m]|].
    - apply good_best_Some in Sc. destruct (apply_move_ok nodes r debug g m SG (proj1 Sc)) as (g1 & E1 & _ & SG1). rewrite E1. cbn [bind].
      destruct (Nat.ltb_spec max_iter (S iter)) as [L|L].
      + intros E. inversion E; subst. replace (S max_iter - iter) with 1 by lia. apply (seg_step _ 0 n g d m g'); [exact Es|exact E1|]. now apply seg_limit with [].
      + intros E. apply IH in E; [|exact SG1|exact Hr|lia]. replace (S max_iter - iter) with (S (S max_iter - S iter)) by lia. now apply (seg_step _ _ n g d m g1).
    - assert (Z : forall b, 0 < b -> hc_loop b mi nrow debug r nodes g = Ok ([], g)) by (intros [|b] Hb; [lia|]; cbn [hc_loop]; now rewrite Es).
      destruct (Nat.ltb_spec restarts R) as [L|L].
      + destruct (rr_moves fuel nodes s n M g) as [[g1 n1]|e] eqn:Ew; cbn [bind fst snd]; [|discriminate].
        destruct (rr_moves_walk nodes s fuel VD M n g g1 n1 SG Ew) as [_ SG1]. replace (R - restarts) with (S (R - S restarts)) by lia.
        destruct (Nat.ltb_spec max_iter 1) as [L1|L1].
        * intros E. inversion E; subst. apply seg_again with [] g n1 g'; [apply Z; lia|cbn [length]; lia|exact Ew|]. replace max_iter with 0 by lia. now apply seg_limit with [].
        * intros E. apply IH in E; [|exact SG1|lia|lia]. apply seg_again with [] g n1 g1; [apply Z; lia|cbn [length]; lia|exact Ew|].
          replace (S max_iter - 1) with max_iter in E by lia. exact E.
      + intros E. inversion E; subst. replace (R - restarts) with 0 by lia. apply seg_last with []; [apply Z; lia|cbn [length]; lia].
  Qed.
End Segments.
(** without restarts, or without random moves: the loop of hc *)
Lemma rr_loop_none mi nrow debug r nodes s fuel max_iter R M : forall passes n iter restarts g, R <= restarts -> S max_iter - iter <= passes -> iter <= max_iter ->
  rr_loop passes fuel s n mi nrow max_iter R M debug r nodes iter restarts g = do lg <- hc_loop (S max_iter - iter) mi nrow debug r nodes g ;; Ok (snd lg).
Proof.
  induction passes as [|k IH]; intros n iter restarts g HR Hp Hi; [lia|]. cbn [rr_loop]. replace (S max_iter - iter) with (S (max_iter - iter)) by lia. cbn [hc_loop].
  destruct (scan mi nrow (fun _ => true) r nodes g) as [[[d m]|]|e]; cbn [bind]; [| |reflexivity].
  - destruct (apply_move debug g m) as [g1|e]; cbn [bind]; [|reflexivity]. destruct (Nat.ltb_spec max_iter (S iter)) as [L|L].
    + replace (max_iter - iter) with 0 by lia. reflexivity.
    + rewrite IH by lia. replace (S max_iter - S iter) with (max_iter - iter) by lia. destruct (hc_loop (max_iter - iter) mi nrow debug r nodes g1); reflexivity.
  - destruct (Nat.ltb_spec restarts R) as [L|L]; [lia|]. reflexivity.
Qed.
Lemma rr_loop_stay mi nrow debug r nodes s fuel max_iter R g : scan mi nrow (fun _ => true) r nodes g = Ok None ->
  forall passes n iter restarts, S (R - restarts) <= passes -> rr_loop passes fuel s n mi nrow max_iter R 0 debug r nodes iter restarts g = Ok g.
Proof.
  intros Es. induction passes as [|k IH]; intros n iter restarts Hp; [lia|]. cbn [rr_loop rr_moves]. rewrite Es. cbn [bind fst snd].
  destruct (Nat.ltb_spec restarts R) as [L|L]; [|reflexivity]. destruct (max_iter <? 1); [reflexivity|]. apply IH. lia.
Qed.
Lemma rr_loop_still mi nrow debug r nodes s fuel max_iter R : forall passes n iter restarts g, (S max_iter - iter) + (R - restarts) <= passes -> iter <= max_iter ->
  rr_loop passes fuel s n mi nrow max_iter R 0 debug r nodes iter restarts g = do lg <- hc_loop (S max_iter - iter) mi nrow debug r nodes g ;; Ok (snd lg).
Proof.
  induction passes as [|k IH]; intros n iter restarts g Hp Hi; [lia|]. replace (S max_iter - iter) with (S (max_iter - iter)) by lia. cbn [hc_loop].
  destruct (scan mi nrow (fun _ => true) r nodes g) as [[[d m]|]|e] eqn:Es.
  - cbn [rr_loop]. rewrite Es. cbn [bind].
    destruct (apply_move debug g m) as [g1|e]; cbn [bind]; [|reflexivity]. destruct (Nat.ltb_spec max_iter (S iter)) as [L|L].
    + replace (max_iter - iter) with 0 by lia. reflexivity.
    + rewrite IH by lia. replace (S max_iter - S iter) with (max_iter - iter) by lia. destruct (hc_loop (max_iter - iter) mi nrow debug r nodes g1); reflexivity.
  - rewrite rr_loop_stay; [reflexivity|exact Es|lia].
  - cbn [rr_loop]. rewrite Es. reflexivity.
Qed.
(** more draws than needed make no difference *)
Lemma rr_move_more nodes s k g fuel' : forall fuel n x, rr_move fuel nodes s n k g = Ok x -> fuel <= fuel' -> rr_move fuel' nodes s n k g = Ok x.
Proof.
  induction fuel' as [|f' IH]; intros [|f] n x E L; cbn [rr_move] in *; try discriminate; try lia.
  destruct (length nodes <? 2); [discriminate|]. destruct (admissible g k (d_u (s n)) (d_v (s n))) as [[]|e]; cbn [bind] in *; [exact E| |discriminate].
  apply (IH f); [exact E|lia].
Qed.
Lemma rr_moves_more nodes s fuel fuel' : fuel <= fuel' -> forall M n g x, rr_moves fuel nodes s n M g = Ok x -> rr_moves fuel' nodes s n M g = Ok x.
Proof.
  intros L. induction M as [|M IH]; intros n g x; cbn [rr_moves]; [auto|].
  destruct (rr_move fuel nodes s (S n) (d_op (s n)) g) as [y|e] eqn:E; cbn [bind]; [|discriminate]. rewrite (rr_move_more nodes s _ g fuel' fuel _ _ E L). cbn [bind]. apply IH.
Qed.
Lemma rr_loop_more mi nrow debug r nodes s fuel fuel' max_iter R M : fuel <= fuel' -> forall passes n iter restarts g x,
  rr_loop passes fuel s n mi nrow max_iter R M debug r nodes iter restarts g = Ok x -> rr_loop passes fuel' s n mi nrow max_iter R M debug r nodes iter restarts g = Ok x.
Proof.
  intros L. induction passes as [|k IH]; intros n iter restarts g x; cbn [rr_loop]; [auto|].
  destruct (scan mi nrow (fun _ => true) r nodes g) as [[[d m]|]|e]; cbn [bind]; [| |discriminate].
  - destruct (apply_move debug g m) as [g1|e]; cbn [bind]; [|discriminate]. destruct (max_iter <? S iter); [auto|apply IH].
  - destruct (restarts <? R); [|auto]. destruct (rr_moves fuel nodes s n M g) as [y|e] eqn:E; cbn [bind]; [|discriminate].
    rewrite (rr_moves_more nodes s fuel fuel' L _ _ _ _ E). cbn [bind]. destruct (max_iter <? 1); [auto|apply IH].
Qed.
