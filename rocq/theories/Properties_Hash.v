(** Properties_Hash.v -- theorem C149: BayesNet objects as dictionary keys. *)
From Verif Require Import Py Num BayesNet SpecGraph Graph GraphNet Hashing Properties_Graph Examples.
Open Scope nat_scope.

Lemma lookup_skip {A} heap hx (d1 d2 : bn_dict A) x : (forall k hk v, In (k, hk, v) d1 -> hk <> hx) -> bn_lookup heap hx (d1 ++ d2) x = bn_lookup heap hx d2 x.
Proof.
  induction d1 as [|[[k hk] v] d1 IH]; intros H; [reflexivity|]. cbn [app bn_lookup]. destruct (Z.eqb_spec hk hx) as [E|_]; [exfalso; exact (H k hk v (or_introl eq_refl) E)|].
  apply IH. intros k' hk' v' I. apply (H k' hk' v'). now right.
Qed.
(** the object that was the key finds its value again, whatever happened to probabilities and values in between, as long as
    its nodes and edges are what they were and no other key has its hash *)
Theorem C149_found : forall A h heap0 heap (d1 d2 : bn_dict A) x v, bn_V (heap x) = bn_V (heap0 x) -> bn_E (heap x) = bn_E (heap0 x) ->
  (forall k hk w, In (k, hk, w) d1 -> hk <> bn_hash h (heap0 x)) ->
  bn_getitem h heap (bn_insert h heap0 d1 x v ++ d2) x = Ok v.
Proof.
  intros A h heap0 heap d1 d2 x v EV EE H. unfold bn_getitem, bn_insert. assert (Eh : bn_hash h (heap x) = bn_hash h (heap0 x)) by (unfold bn_hash; congruence).
  rewrite Eh, <- app_assoc, lookup_skip by exact H. cbn [app bn_lookup]. now rewrite Z.eqb_refl, Nat.eqb_refl.
Qed.
Print Assumptions C149_found.
(** after a change of nodes or edges that changes the hash the value is out of reach *)
Theorem C149_lost : forall A h heap (d : bn_dict A) x, (forall k hk v, In (k, hk, v) d -> hk <> bn_hash h (heap x)) -> bn_getitem h heap d x = Raise KeyError.
Proof. intros A h heap d x H. unfold bn_getitem. rewrite <- (app_nil_r d), lookup_skip by exact H. reflexivity. Qed.
Print Assumptions C149_lost.
(** in particular: a hash without collisions, and any change of the nodes or the edges of the key between storing and looking up *)
Theorem C149_changed : forall A h heap0 heap (d : bn_dict A) x v, (forall V E V' E', h V E = h V' E' -> V = V' /\ E = E') ->
  bn_V (heap x) <> bn_V (heap0 x) \/ bn_E (heap x) <> bn_E (heap0 x) ->
  bn_getitem h heap d x = Raise KeyError -> bn_getitem h heap (bn_insert h heap0 d x v) x = Raise KeyError.
Proof.
  intros A h heap0 heap d x v Inj Ch. unfold bn_getitem, bn_insert.
  assert (N : bn_hash h (heap0 x) <> bn_hash h (heap x)) by (intros E; unfold bn_hash in E; apply Inj in E as [E1 E2]; destruct Ch as [C|C]; apply C; symmetry; assumption).
  revert N. generalize (bn_hash h (heap x)) as hx. intros hx N.
  induction d as [|[[k hk] w] d IH]; intros E; cbn [app bn_lookup] in *.
  - destruct (Z.eqb_spec (bn_hash h (heap0 x)) hx); [contradiction|reflexivity].
  - destruct (Z.eqb_spec hk hx); [|now apply IH]. destruct (k =? x); [discriminate|]. destruct (are_class_equivalent (heap k) (heap x)) as [[|]|e1]; cbn [bind] in *; [discriminate|now apply IH|exact E].
Qed.
Print Assumptions C149_changed.
(** another network with the same nodes, edges and hash is not found: the comparison raises TypeError; this holds for an exact
    copy in particular *)
Theorem C149_copy : forall A h heap (d1 d2 : bn_dict A) x y v, graph_ok (heap x) -> graph_ok (heap y) -> bn_V (heap x) <> [] ->
  (forall k hk w, In (k, hk, w) d1 -> hk <> bn_hash h (heap x)) -> x <> y -> bn_V (heap y) = bn_V (heap x) -> bn_E (heap y) = bn_E (heap x) ->
  bn_getitem h heap (bn_insert h heap d1 x v ++ d2) y = Raise TypeError.
Proof.
  intros A h heap d1 d2 x y v Gx Gy Ne H N EV EE. unfold bn_getitem, bn_insert. assert (Eh : bn_hash h (heap y) = bn_hash h (heap x)) by (unfold bn_hash; congruence).
  rewrite Eh, <- app_assoc, lookup_skip by exact H. cbn [app bn_lookup]. rewrite Z.eqb_refl. destruct (Nat.eqb_spec x y) as [E|_]; [contradiction|].
  rewrite C30_same_nodes_refuted; [reflexivity|exact Gx|exact Gy|exact Ne|]. rewrite EV. tauto.
Qed.
Print Assumptions C149_copy.
(** a network with nodes is never found under another object: the dictionary is keyed by identity *)
Theorem C149_identity : forall A h heap (d : bn_dict A) x v, bn_V (heap x) <> [] -> bn_getitem h heap d x = Ok v -> In (x, bn_hash h (heap x), v) d.
Proof.
  intros A h heap d x v Ne. unfold bn_getitem. generalize (bn_hash h (heap x)) as hx. intros hx. induction d as [|[[k hk] w] d IH]; cbn [bn_lookup]; intros E; [discriminate|].
  destruct (Z.eqb_spec hk hx) as [->|_]; [|right; now apply IH]. destruct (Nat.eqb_spec k x) as [->|_]; [injection E as ->; now left|].
  destruct (are_class_equivalent (heap k) (heap x)) as [[|]|e] eqn:Eq; cbn [bind] in E; [|right; now apply IH|discriminate]. apply C30_true_iff_empty in Eq. tauto.
Qed.
Print Assumptions C149_identity.
(** all networks without nodes and edges are one key *)
Theorem C149_empty : forall A h heap (d1 d2 : bn_dict A) x y v, bn_V (heap x) = [] -> bn_V (heap y) = [] -> bn_E (heap y) = bn_E (heap x) ->
  (forall k hk w, In (k, hk, w) d1 -> hk <> bn_hash h (heap x)) -> bn_getitem h heap (bn_insert h heap d1 x v ++ d2) y = Ok v.
Proof.
  intros A h heap d1 d2 x y v Vx Vy EE H. unfold bn_getitem, bn_insert. assert (Eh : bn_hash h (heap y) = bn_hash h (heap x)) by (unfold bn_hash; congruence).
  rewrite Eh, <- app_assoc, lookup_skip by exact H. cbn [app bn_lookup]. rewrite Z.eqb_refl. destruct (x =? y); [reflexivity|].
  replace (are_class_equivalent (heap x) (heap y)) with (Ok true); [reflexivity|]. symmetry. now apply C30_true_iff_empty.
Qed.
Print Assumptions C149_empty.

(** two objects with the same contents, and a third one with an edge less *)
Definition exHeap (k : nat) : bayesnet := match k with 0 | 1 => ex3 | _ => mkBN (bn_V ex3) [] (bn_F ex3) end.
Definition exHash (V : list name) (E : edict) : Z := Z.of_nat (length V + 10 * length E).
Example C149_nonvacuous : graph_ok (exHeap 0) /\ bn_V (exHeap 0) <> [] /\ bn_getitem exHash exHeap (bn_insert exHash exHeap [] 0 true) 0 = Ok true /\
  bn_getitem exHash exHeap (bn_insert exHash exHeap [] 0 true) 1 = Raise TypeError /\ bn_getitem exHash exHeap (bn_insert exHash exHeap [] 0 true) 2 = Raise KeyError.
Proof. split; [apply ex3_graph|]. split; [discriminate|]. split; [reflexivity|]. split; reflexivity. Qed.
