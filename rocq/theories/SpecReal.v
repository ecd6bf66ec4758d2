(** SpecReal.v -- what the theorems about logarithmic scores and p-values talk about, independent of the code. *)
From Verif Require Import Py Num Data SpecLearn SpecData.
From Coq Require Import Reals Qreals.
Open Scope R_scope.

(** a rational as a real number *)
Definition qr (q : Qc) : R := Q2R (this q).
(** f 0 + .. + f (n-1) *)
Definition rsum (n : nat) (f : nat -> R) : R := fold_right Rplus 0 (map f (seq 0 n)).
(** the relative frequency of the rows with the values [q] *)
Definition freq (t : table) (q : list (name * name)) : R := INR (rows_with t q) / INR (length (t_rows t)).
(** level number i of a column whose levels are a, .., a+k-1 *)
Definition lvl (ak : nat * nat) (i : nat) : name := NInt (fst ak + i).
(** x and y are independent in the data, exactly: #(x=u, y=v) / N = #(x=u)/N * #(y=v)/N for all values *)
Definition exactly_independent (t : table) (x y : name) : Prop :=
  forall u v, (length (t_rows t) * rows_with t [(x, u); (y, v)] = rows_with t [(x, u)] * rows_with t [(y, v)])%nat.
(** x and y are independent given z in the data, exactly *)
Definition exactly_independent_given (t : table) (x y z : name) : Prop :=
  forall u v w, (rows_with t [(z, w)] * rows_with t [(x, u); (y, v); (z, w)] = rows_with t [(x, u); (z, w)] * rows_with t [(y, v); (z, w)])%nat.
(** the mutual information of two columns with levels [ax], [ay]: sum of p(u,v) ln (p(u,v) / (p(u) p(v)));
    a term with p(u,v) = 0 counts 0 *)
Definition plugin_mi (t : table) (x y : name) (ax ay : nat * nat) : R :=
  rsum (snd ax) (fun i => rsum (snd ay) (fun j =>
    let p := freq t [(x, lvl ax i); (y, lvl ay j)] in p * ln (p / (freq t [(x, lvl ax i)] * freq t [(y, lvl ay j)])))).
(** the same with e added to every joint frequency and every product of frequencies *)
Definition smoothed_mi (e : R) (t : table) (x y : name) (ax ay : nat * nat) : R :=
  rsum (snd ax) (fun i => rsum (snd ay) (fun j =>
    let p := freq t [(x, lvl ax i); (y, lvl ay j)] in
    (p + e) * ln ((p + e) / (freq t [(x, lvl ax i)] * freq t [(y, lvl ay j)] + e)))).
(** conditional mutual information given a third column, smoothed the way the library does it *)
Definition smoothed_cmi (e : R) (t : table) (x y z : name) (ax ay az : nat * nat) : R :=
  rsum (snd ax) (fun i => rsum (snd ay) (fun j => rsum (snd az) (fun k =>
    let u := lvl ax i in let v := lvl ay j in let w := lvl az k in
    let p := freq t [(x, u); (y, v); (z, w)] in let pz := freq t [(z, w)] + e in
    (p + e) * ln ((p / pz + e) / (freq t [(x, u); (z, w)] / pz * (freq t [(y, v); (z, w)] / pz) + e))))).

(** Gamma (k/2) for k >= 1: Gamma (1/2) = sqrt pi, Gamma 1 = 1, Gamma (s+1) = s Gamma s *)
Fixpoint half_gamma (k : nat) : R :=
  match k with
  | O => 0
  | S O => sqrt PI
  | S (S m) => match m with O => 1 | _ => INR m / 2 * half_gamma m end
  end.
(** the density of the chi-square distribution with k degrees of freedom at x > 0 *)
Definition chi2_density (k : nat) (x : R) : R :=
  Rpower x (INR k / 2 - 1) * exp (- x / 2) / (Rpower 2 (INR k / 2) * half_gamma k).
(** L lists the distinct values of column v *)
Definition column_levels (t : table) (v : name) (L : list name) : Prop :=
  exists i, v = NInt i /\ NoDup L /\ forall u, In u L <-> occurs t i u.
(** the entropy of a column with the values L: - sum of p ln p *)
Definition plugin_entropy (t : table) (v : name) (L : list name) : R :=
  - fold_right Rplus 0 (map (fun u => freq t [(v, u)] * ln (freq t [(v, u)])) L).
(** the conditional entropy of x given y, with e added to the frequencies *)
Definition smoothed_cond_entropy (e : R) (t : table) (x y : name) (ax ay : nat * nat) : R :=
  rsum (snd ax) (fun i => rsum (snd ay) (fun j =>
    let p := freq t [(x, lvl ax i); (y, lvl ay j)] in (p + e) * ln ((freq t [(y, lvl ay j)] + e) / (p + e)))).
(** the conditional entropy of x given y: sum of p(u,v) ln (p(v) / p(u,v)); a term with p(u,v) = 0 counts 0 *)
Definition plugin_cond_entropy (t : table) (x y : name) (ax ay : nat * nat) : R :=
  rsum (snd ax) (fun i => rsum (snd ay) (fun j =>
    let p := freq t [(x, lvl ax i); (y, lvl ay j)] in p * ln (freq t [(y, lvl ay j)] / p))).
(** the conditional entropy of x given y and z *)
Definition plugin_cond_entropy3 (t : table) (x y z : name) (ax ay az : nat * nat) : R :=
  rsum (snd ax) (fun i => rsum (snd ay) (fun j => rsum (snd az) (fun k =>
    let p := freq t [(x, lvl ax i); (y, lvl ay j); (z, lvl az k)] in p * ln (freq t [(y, lvl ay j); (z, lvl az k)] / p)))).
