(** Properties_Wrap.v -- theorem C109: the wrappers that never give a result. *)
From Verif Require Import Py Num BayesNet Graph Data ParamLearn StructScore SpecConstraint DataUtils Wrappers CliqueTree.
Open Scope nat_scope.

(** the only table for which mmpc returns has no columns; mmhc, TAN, feature_selection, fs_gambit, bridge and mdbn never return *)
Theorem C109_learners : forall t, (forall d, mmpc t = Ok d -> t_ncols t = 0 /\ d = []) /\ (forall bn, mmhc t <> Ok bn) /\ (forall dims target bn, TAN dims target <> Ok bn) /\
  (forall target m l, feature_selection t target m <> Ok l) /\ (forall target d, fs_gambit t target <> Ok d) /\ (forall c f r, bridge c f <> Ok r) /\ (forall f c r, mdbn f c <> Ok r).
Proof.
  intros t. assert (M : forall d, mmpc t = Ok d -> t_ncols t = 0 /\ d = []). { intros d. unfold mmpc. destruct (t_ncols t); cbn; [|discriminate]. intros E. injection E as <-. now split. }
  split; [exact M|]. split; [intros bn; unfold mmhc; destruct (mmpc t); discriminate|]. split; [intros dims target bn; unfold TAN; destruct (dims <? 3); discriminate|]. split; [discriminate|]. split; [discriminate|]. split; [discriminate|].
  intros f c r. unfold mdbn. destruct f; [destruct c|]; discriminate.
Qed.
Print Assumptions C109_learners.
(** and which exception each of them raises *)
Theorem C109_exceptions : forall t,
  (t_ncols t <> 0 -> mmpc t = Raise NameError) /\ mmhc t = Raise NameError /\ (forall target m, feature_selection t target m = Raise NameError) /\ (forall target, fs_gambit t target = Raise NameError) /\
  (forall dims target, TAN dims target = Raise (if dims <? 3 then IndexError else NameError)) /\
  (forall c f, bridge c f = Raise TypeError /\ mdbn (Ok f) (Ok c) = Raise TypeError) /\
  (forall e c, mdbn (Raise e) c = Raise e) /\ (forall f e, mdbn (Ok f) (Raise e) = Raise e) /\
  (forall target, predict t target None = Raise NameError).
Proof.
  intros t. assert (M : t_ncols t <> 0 -> mmpc t = Raise NameError). { unfold mmpc. destruct (t_ncols t); [congruence|reflexivity]. }
  split; [exact M|]. split. { unfold mmhc. destruct (t_ncols t) eqn:E; [|rewrite M by discriminate; reflexivity]. unfold mmpc. rewrite E. reflexivity. }
  split; [reflexivity|]. split; [reflexivity|]. split; [intros dims target; unfold TAN; now destruct (dims <? 3)|]. split; [now split|]. split; [reflexivity|]. now split.
Qed.
Print Assumptions C109_exceptions.
(** predict returns only for a table without rows and a given classifier: two empty lists and nan *)
Theorem C109_predict : forall t target bn y yp acc, predict t target bn = Ok (y, yp, acc) -> t_rows t = [] /\ bn <> None /\ y = [] /\ yp = [] /\ acc = None.
Proof.
  intros t target bn y yp acc E. unfold predict in E. destruct bn as [bn|]; [|discriminate]. cbn [bind] in E. destruct (t_rows t) as [|r rows].
  - cbn in E. injection E as <- <- <-. split; [reflexivity|]. split; [discriminate|]. auto.
  - cbn [mapM] in E. destruct (mapM (nget r) _); [|discriminate]. cbn [bind] in E. destruct (nget r target) as [x|]; [|discriminate]. cbn [bind] in E. destruct (as_int32 x); discriminate.
Qed.
Print Assumptions C109_predict.
(** BDe, BDeu and K2: 1 for the network without nodes, AttributeError for any other; with any non-empty counts they raise as well *)
Theorem C109_scores : forall bn, BDe bn = (match bn_V bn with [] => Ok 1%Qc | _ => Raise AttributeError end) /\ BDeu bn = BDe bn /\ K2 bn = BDe bn /\
  forall C, C <> [] -> bde_of (Ok C) = Raise UnboundLocalError /\ k2_of (Ok C) = Raise NameError.
Proof.
  intros bn. unfold BDe, BDeu, K2, mle_fast_counts. destruct (bn_V bn) as [|v l]; (split; [reflexivity|]; split; [reflexivity|]; split; [reflexivity|]); (intros [|x C] N; [congruence|now split]).
Qed.
Print Assumptions C109_scores.
(** mle_fast learns nothing: with nothing to learn it empties F, otherwise it stops at np.unique; the two message-passing entry
    points and the cluster graph stop at an undefined name, whatever they are given *)
Theorem C109_fast_and_graphs : forall bn t nodes target evidence down m,
  mle_fast bn t nodes = (if length (match nodes with Some l => l | None => bn_V bn end) =? 0 then Ok (mkBN (bn_V bn) (bn_E bn) []) else Raise AttributeError) /\
  exact_bp bn target evidence down = Raise NameError /\ loopy_bp target evidence m = Raise NameError /\ cluster_graph bn = Raise NameError.
Proof. intros bn t nodes target evidence down m. split; [|auto]. unfold mle_fast. destruct nodes as [[|x l]|]; [reflexivity|reflexivity|]. destruct (bn_V bn) eqn:E; [|reflexivity]. unfold bn_with_F. now rewrite E. Qed.
Print Assumptions C109_fast_and_graphs.
Example C109_nonvacuous : exists bn, bn_V bn <> [] /\ BDe bn = Raise AttributeError /\ predict (mkT 2 [[NInt 0; NInt 1]]) 1 (Some bn) = Raise NameError /\ predict (mkT 2 []) 1 (Some bn) = Ok ([], [], None).
Proof. exists (mkBN [NInt 0] [(NInt 0, [])] []). split; [discriminate|]. split; [reflexivity|]. split; reflexivity. Qed.
