(** Conformance.v -- the project's own unit tests replayed on the model (a check of the model, not theorems about it).

    pyBN's tests import pyBN.readwrite, which does not exist at this commit, so they cannot run as they are; but the
    values they expect were produced by the program.  Each Example cites the test it replays.  The last section lists
    the tests whose expectation the present code does not meet (it changed after they were written), with what
    the code at this commit does instead.  The files of /repo/data the tests read are written out below. *)
From Verif Require Import Py Num Text BayesNet Graph IO Factor Rounding Factorization Sampling DataUtils Data SpecConstraint Constraint ChowLiu Examples.
From Coq Require Import Ascii String.
Open Scope string_scope.
Open Scope list_scope.
Open Scope nat_scope.

(** Python's float on the unsigned decimal strings of the file *)
Definition digit (c : ascii) : option nat :=
  let n := nat_of_ascii c in if (48 <=? n) && (n <=? 57) then Some (n - 48) else None.
Fixpoint dec_frac (s : string) (acc : Z) (scale : positive) : option Qc :=
  match s with
  | EmptyString => Some (qq acc scale)
  | String c r => match digit c with Some d => dec_frac r (acc * 10 + Z.of_nat d)%Z (scale * 10)%positive | None => None end
  end.
Fixpoint dec_int (s : string) (acc : Z) : option Qc :=
  match s with
  | EmptyString => Some (qq acc 1)
  | String c r => if Ascii.eqb c "."%char then dec_frac r acc 1 else
                  match digit c with Some d => dec_int r (acc * 10 + Z.of_nat d)%Z | None => None end
  end.
Definition fl (s : string) : option Qc := match s with EmptyString => None | _ => dec_int s 0 end.
Definition nl : string := String (ascii_of_nat 10) EmptyString.
Definition dq (q : list Qc) : list Q := map this q.

(** /repo/data/cancer.bif *)
Definition cancer_bif : list string := map (fun l => append l nl) [
  "network unknown {";
  "}";
  "variable Pollution {";
  "  type discrete [ 2 ] { low, high };";
  "}";
  "variable Smoker {";
  "  type discrete [ 2 ] { True, False };";
  "}";
  "variable Cancer {";
  "  type discrete [ 2 ] { True, False };";
  "}";
  "variable Xray {";
  "  type discrete [ 2 ] { positive, negative };";
  "}";
  "variable Dyspnoea {";
  "  type discrete [ 2 ] { True, False };";
  "}";
  "probability ( Pollution ) {";
  "  table 0.9, 0.1;";
  "}";
  "probability ( Smoker ) {";
  "  table 0.3, 0.7;";
  "}";
  "probability ( Cancer | Pollution, Smoker ) {";
  "  (low, True) 0.03, 0.97;";
  "  (high, True) 0.05, 0.95;";
  "  (low, False) 0.001, 0.999;";
  "  (high, False) 0.02, 0.98;";
  "}";
  "probability ( Xray | Cancer ) {";
  "  (True) 0.9, 0.1;";
  "  (False) 0.2, 0.8;";
  "}";
  "probability ( Dyspnoea | Cancer ) {";
  "  (True) 0.65, 0.35;";
  "  (False) 0.3, 0.7;";
  "}"].
(** /repo/data/cmu.bn, as the json module parses it *)
Definition cmu_bn : json := JObj [
  ("V", JList [JStr "Burglary"; JStr "Earthquake"; JStr "Alarm"; JStr "JohnCalls"; JStr "MaryCalls"]);
  ("E", JObj [("Burglary", JList [JStr "Alarm"]); ("Earthquake", JList [JStr "Alarm"]); ("Alarm", JList [JStr "JohnCalls"; JStr "MaryCalls"]); ("JohnCalls", JList []); ("MaryCalls", JList [])]);
  ("F", JObj [
    ("Burglary", JObj [("values", JList [JStr "No"; JStr "Yes"]); ("parents", JList []); ("cpt", JList [JNum (qq 999 1000); JNum (qq 1 1000)])]);
    ("Earthquake", JObj [("values", JList [JStr "No"; JStr "Yes"]); ("parents", JList []); ("cpt", JList [JNum (qq 499 500); JNum (qq 1 500)])]);
    ("Alarm", JObj [("values", JList [JStr "No"; JStr "Yes"]); ("parents", JList [JStr "Earthquake"; JStr "Burglary"]); ("cpt", JList [JNum (qq 999 1000); JNum (qq 1 1000); JNum (qq 71 100); JNum (qq 29 100); JNum (qq 3 50); JNum (qq 47 50); JNum (qq 1 20); JNum (qq 19 20)])]);
    ("JohnCalls", JObj [("values", JList [JStr "No"; JStr "Yes"]); ("parents", JList [JStr "Alarm"]); ("cpt", JList [JNum (qq 19 20); JNum (qq 1 20); JNum (qq 1 10); JNum (qq 9 10)])]);
    ("MaryCalls", JObj [("values", JList [JStr "No"; JStr "Yes"]); ("parents", JList [JStr "Alarm"]); ("cpt", JList [JNum (qq 99 100); JNum (qq 1 100); JNum (qq 3 10); JNum (qq 7 10)])])])].

Definition n (s : string) : name := NStr s.
(** a dict order under which the reader lists the nodes as the tests expect (CPython's order depends on the hashes) *)
Definition order_by (pref : list name) : oracle := fun _ l => filter (fun k => mem k l) pref ++ filter (fun k => negb (mem k pref)) l.
Definition cancer_order := order_by (map n ["Smoker"; "Pollution"; "Cancer"; "Xray"; "Dyspnoea"]).
Definition cmu : bayesnet := Eval vm_compute in match read_json id_oracle (Some cmu_bn) with Ok b => b | Raise _ => mkBN [] [] [] end.
Definition cancer : bayesnet := Eval vm_compute in match read_bif 0 cancer_order fl cancer_bif with Ok b => b | Raise _ => mkBN [] [] [] end.
Definition Burglary := n "Burglary". Definition Earthquake := n "Earthquake". Definition Alarm := n "Alarm".
Definition JohnCalls := n "JohnCalls". Definition MaryCalls := n "MaryCalls". Definition Yes := n "Yes". Definition No := n "No".
Definition seen (bn : bayesnet) : list (name * (list name * list name * list Q)) :=
  map (fun p => (fst p, (f_parents (snd p), f_values (snd p), dq (f_cptl (snd p))))) (bn_F bn).
Definition on {A B} (r : res A) (f : A -> B) : option B := match r with Ok a => Some (f a) | Raise _ => None end.

(** ** pyBN/io/_tests/test_reading.py, pyBN/classes/_tests/test_bayesnet.py *)
(** test_read_bn_vertices, test_V_bn, test_E_bn, test_F_bn *)
Example cmu_read : on (read_json id_oracle (Some cmu_bn)) (fun b => (bn_V b, bn_E b)) =
  Some ([Burglary; Earthquake; Alarm; JohnCalls; MaryCalls],
        [(Burglary, [Alarm]); (Earthquake, [Alarm]); (Alarm, [JohnCalls; MaryCalls]); (JohnCalls, []); (MaryCalls, [])]).
Proof. vm_compute. reflexivity. Qed.
Example cmu_F : seen cmu =
  [(Burglary, ([], [No; Yes], [999 # 1000; 1 # 1000]));
   (Earthquake, ([], [No; Yes], [499 # 500; 1 # 500]));
   (Alarm, ([Earthquake; Burglary], [No; Yes], [999 # 1000; 1 # 1000; 71 # 100; 29 # 100; 3 # 50; 47 # 50; 1 # 20; 19 # 20]));
   (JohnCalls, ([Alarm], [No; Yes], [19 # 20; 1 # 20; 1 # 10; 9 # 10]));
   (MaryCalls, ([Alarm], [No; Yes], [99 # 100; 1 # 100; 3 # 10; 7 # 10]))]%Q.
Proof. vm_compute. reflexivity. Qed.
(** test_read_bif_vertices, test_V_bif, test_E_bif, test_F_bif *)
Example cancer_read : on (read_bif 0 cancer_order fl cancer_bif) (fun b => (bn_V b, bn_E b)) =
  Some (map n ["Smoker"; "Pollution"; "Cancer"; "Xray"; "Dyspnoea"],
        [(n "Smoker", [n "Cancer"]); (n "Pollution", [n "Cancer"]); (n "Cancer", [n "Xray"; n "Dyspnoea"]); (n "Xray", []); (n "Dyspnoea", [])]).
Proof. vm_compute. reflexivity. Qed.
Example cancer_F : seen cancer =
  [(n "Smoker", ([], [n "True"; n "False"], [3 # 10; 7 # 10]));
   (n "Pollution", ([], [n "low"; n "high"], [9 # 10; 1 # 10]));
   (n "Cancer", ([n "Pollution"; n "Smoker"], [n "True"; n "False"], [3 # 100; 97 # 100; 1 # 20; 19 # 20; 1 # 1000; 999 # 1000; 1 # 50; 49 # 50]));
   (n "Xray", ([n "Cancer"], [n "positive"; n "negative"], [9 # 10; 1 # 10; 1 # 5; 4 # 5]));
   (n "Dyspnoea", ([n "Cancer"], [n "True"; n "False"], [13 # 20; 7 # 20; 3 # 10; 7 # 10]))]%Q.
Proof. vm_compute. reflexivity. Qed.
(** test_nodes, test_cpt, test_card, test_scope, test_parents, test_values, test_values_idx *)
Example cmu_accessors : bn_nodes cmu = [Burglary; Earthquake; Alarm; JohnCalls; MaryCalls] /\
  on (bn_cpt cmu Alarm) dq = Some [999 # 1000; 1 # 1000; 71 # 100; 29 # 100; 3 # 50; 47 # 50; 1 # 20; 19 # 20]%Q /\
  bn_card cmu Alarm = Ok 2 /\ bn_scope cmu Alarm = Ok [Alarm; Earthquake; Burglary] /\
  bn_parents cmu Alarm = Ok [Earthquake; Burglary] /\ bn_values cmu Alarm = Ok [No; Yes] /\
  (do vs <- bn_values cmu Alarm ;; nget vs 1) = Ok Yes.
Proof. vm_compute. auto 10. Qed.

(** ** pyBN/classes/_tests/test_factor.py *)
Definition fA : res factor := factor_init cmu Alarm.
(** test_factor_var, _scope, _card, _stride, _cpt *)
Example factor_fields : on fA (fun f => (f_var f, f_scope f, f_card f, f_stride f, dq (f_cpt f))) =
  Some (Alarm, [Alarm; Earthquake; Burglary], [(Alarm, 2); (Earthquake, 2); (Burglary, 2)], [(Alarm, 1); (Earthquake, 2); (Burglary, 4)],
        [999 # 1000; 1 # 1000; 71 # 100; 29 # 100; 3 # 50; 47 # 50; 1 # 20; 19 # 20]%Q).
Proof. vm_compute. reflexivity. Qed.
(** test_multiply_factor *)
Example multiply_both_ways : on (do f1 <- fA ;; do f2 <- factor_init cmu Burglary ;; factor_mul id_oracle f1 f2) (fun f => dq (f_cpt f)) =
  on (do f3 <- factor_init cmu Burglary ;; do f4 <- fA ;; factor_mul id_oracle f3 f4) (fun f => dq (f_cpt f)).
Proof. vm_compute. reflexivity. Qed.
(** test_sumout_var_list *)
Example sumout_list : on (do f <- fA ;; sumout_var_list id_oracle f [Burglary; Earthquake]) (fun f => (f_scope f, f_stride f)) =
  Some ([Alarm], [(Alarm, 1)]).
Proof. vm_compute. reflexivity. Qed.
(** test_sumout_var *)
Example sumout_one : on (do f <- fA ;; sumout_var id_oracle f Earthquake) (fun f => (f_scope f, f_stride f)) =
  Some ([Alarm; Burglary], [(Alarm, 1); (Burglary, 2)]).
Proof. vm_compute. reflexivity. Qed.
(** test_maxout_var *)
Example maxout_one : on (do f <- fA ;; maxout_var f Burglary) (fun f => (dq (f_cpt f), f_scope f, f_stride f)) =
  Some ([999 # 1000; 47 # 50; 71 # 100; 19 # 20]%Q, [Alarm; Earthquake], [(Alarm, 1); (Earthquake, 2)]).
Proof. vm_compute. reflexivity. Qed.
(** test_reduce_factor_by_list *)
Example reduce_list : on (do f <- fA ;; reduce_factor_by_list id_oracle f [(Burglary, Yes); (Earthquake, Yes)]) (fun f => (dq (f_cpt f), f_scope f, f_stride f)) =
  Some ([1 # 20; 19 # 20]%Q, [Alarm], [(Alarm, 1)]).
Proof. vm_compute. reflexivity. Qed.
(** test_reduce_factor *)
Example reduce_one : on (do f <- fA ;; reduce_factor id_oracle f Burglary Yes) (fun f => dq (f_cpt f)) = Some [3 # 50; 47 # 50; 1 # 20; 19 # 20]%Q.
Proof. vm_compute. reflexivity. Qed.

(** ** pyBN/inference/_tests *)
(** test_lws_allevidence: no random number is used *)
Example lw_all_evidence : on (lw_sample id_oracle cmu [(Burglary, Yes); (Alarm, Yes); (Earthquake, Yes); (JohnCalls, Yes); (MaryCalls, Yes)] (fun _ _ => 0%Qc) 20)
    (map (fun p => (fst p, map (fun q => (fst q, option_map this (snd q))) (snd p)))) =
  Some (map (fun v => (v, [(No, Some 0%Q); (Yes, Some 1%Q)])) [Burglary; Earthquake; Alarm; JohnCalls; MaryCalls]).
Proof. vm_compute. reflexivity. Qed.
(** test_gibbs: every row adds up to 0.9988 = 799/800: with n=1000 and burn=200, 799 states are counted and divided by 800
    (the numbers themselves depend on numpy's generator).  The same with n=10 and burn=2: 7/8 *)
Example gibbs_row_sums : on (gibbs_sample id_oracle cmu (fun _ => 0) (fun _ _ => 0%Qc) 10 2) (map (fun p => this (qsum (map snd (snd p))))) =
  Some (map (fun _ => (7 # 8)%Q) [1; 2; 3; 4; 5]).
Proof. vm_compute. reflexivity. Qed.

(** examples/MAP Inference as Optimization.ipynb: in its data/simple.bn (today's has a third node) the best assignment is A=Yes, B=Yes, with probability 0.63 *)
Definition simple : bayesnet := mkBN [n "A"; n "B"] [(n "A", [n "B"]); (n "B", [])]
  [(n "A", mkF [] [No; Yes] [qq 3 10; qq 7 10]); (n "B", mkF [n "A"] [No; Yes] [qq 4 10; qq 6 10; qq 1 10; qq 9 10])].
Example simple_map : on (ve_map_prob id_oracle simple []) (fun p => (this (fst p), dget (snd p) (n "A"), dget (snd p) (n "B"))) =
  Some ((63 # 100)%Q, Some Yes, Some Yes).
Proof. vm_compute. reflexivity. Qed.
(** examples/FactorOperations.ipynb: multiplication in both orders, to three digits, and reduction.  In the notebook's file
    Alarm's parents are listed the other way round. *)
Definition cmu_nb : bayesnet := mkBN (bn_V cmu) (bn_E cmu)
  (map (fun p => if name_eqb (fst p) Alarm then (fst p, mkF [Burglary; Earthquake] (f_values (snd p)) (f_cptl (snd p))) else p) (bn_F cmu)).
Example notebook_factor : on (factor_init cmu_nb Alarm) (fun f => (f_scope f, f_stride f)) =
  Some ([Alarm; Burglary; Earthquake], [(Alarm, 1); (Burglary, 2); (Earthquake, 4)]).
Proof. vm_compute. reflexivity. Qed.
Example notebook_multiply : let out f := dq (map (np_round 3) (f_cpt f)) in
  let shown := Some [499 # 500; 1 # 1000; 1 # 1000; 0; 3 # 50; 939 # 1000; 0; 1 # 1000]%Q in
  on (do f1 <- factor_init cmu_nb Alarm ;; do f2 <- factor_init cmu_nb Burglary ;; factor_mul id_oracle f1 f2) out = shown /\
  on (do f3 <- factor_init cmu_nb Burglary ;; do f4 <- factor_init cmu_nb Alarm ;; factor_mul (order_by [Alarm; Burglary; Earthquake]) f3 f4) out = shown.
Proof. vm_compute. auto. Qed.
Example notebook_reduce : on (do f <- factor_init cmu_nb Alarm ;; reduce_factor id_oracle f Burglary Yes) (fun f => (f_scope f, dq (f_cpt f))) =
  Some ([Alarm; Earthquake], [71 # 100; 29 # 100; 1 # 20; 19 # 20]%Q).
Proof. vm_compute. reflexivity. Qed.

(** ** pyBN/utils/_tests *)
(** test_markov_blanket *)
Example blankets : on (markov_blanket cmu) (fun d => d) =
  Some [(Burglary, [Alarm; Earthquake]); (Earthquake, [Alarm; Burglary]); (Alarm, [Earthquake; Burglary; JohnCalls; MaryCalls]);
        (JohnCalls, [Alarm]); (MaryCalls, [Alarm])].
Proof. vm_compute. reflexivity. Qed.
(** test_orient_edges_pc (the function is now orient_edges_CS) *)
Example orient_pc : orient_edges_CS [(NInt 0, [NInt 1; NInt 2]); (NInt 1, [NInt 0]); (NInt 2, [NInt 0])]
    [(NInt 0, []); (NInt 1, [(NInt 2, [NInt 0])]); (NInt 2, [(NInt 1, [NInt 0])])] =
  Ok [(NInt 0, [NInt 1; NInt 2]); (NInt 1, []); (NInt 2, [])].
Proof. vm_compute. reflexivity. Qed.

(** ** pyBN/learning/structure/_tests *)
(** data/lizards.csv, 409 rows, as numbers of equal rows, and the p-values mi_test gives on it (independence_tests.py:105-226 carried out
    apart from the model, to 4 decimals; test_independence_tests expects 0.0004, 0.0014 and 0.0009 among them) *)
Definition lizards : table := mkT 3 (flat_map (fun p => repeat (snd p) (fst p)) [(86, [NInt 1; NInt 1; NInt 1]); (32, [NInt 1; NInt 1; NInt 2]); (35, [NInt 1; NInt 2; NInt 1]); (11, [NInt 1; NInt 2; NInt 2]); (73, [NInt 2; NInt 1; NInt 1]); (61, [NInt 2; NInt 1; NInt 2]); (70, [NInt 2; NInt 2; NInt 1]); (41, [NInt 2; NInt 2; NInt 2])]).
Definition lizard_test : SpecConstraint.ptest := fun cols =>
  match find (fun p => if list_eq_dec name_eq_dec cols (fst p) then true else false)
    [([NInt 0; NInt 1], 4%Z); ([NInt 0; NInt 2], 14%Z); ([NInt 1; NInt 0], 4%Z); ([NInt 1; NInt 2], 7553%Z); ([NInt 2; NInt 0], 14%Z); ([NInt 2; NInt 1], 7553%Z); ([NInt 0; NInt 1; NInt 2], 9%Z); ([NInt 0; NInt 2; NInt 1], 27%Z); ([NInt 1; NInt 0; NInt 2], 9%Z); ([NInt 1; NInt 2; NInt 0], 3632%Z); ([NInt 2; NInt 0; NInt 1], 27%Z); ([NInt 2; NInt 1; NInt 0], 3632%Z)] with
  | Some p => Ok (Some (qq (snd p) 10000)) | None => Raise IndexError end.
Definition shown (bn : bayesnet) := (bn_V bn, bn_E bn, map (fun p => (fst p, (f_parents (snd p), f_values (snd p)))) (bn_F bn)).
Definition lizard_net := Some ([NInt 0; NInt 1; NInt 2], [(NInt 0, [NInt 1; NInt 2]); (NInt 1, []); (NInt 2, [])],
  [(NInt 0, ([], [NInt 1; NInt 2])); (NInt 1, ([NInt 0], [NInt 1; NInt 2])); (NInt 2, ([NInt 0], [NInt 1; NInt 2]))]).
(** test_pc1_V, test_pc1_E, test_pc1_F *)
Example pc_lizards : on (pc lizard_test (qq 1 20) lizards) shown = lizard_net.
Proof. vm_compute. reflexivity. Qed.
(** test_chow_liu1_V, _E, _F: with the mutual information of each pair for a weight (the call chow_liu makes today raises: C106) *)
Example chow_liu_lizards : on (chow_liu (fun i j => Ok (if name_eqb i (NInt 1) then qq 7 10000 else if name_eqb j (NInt 1) then qq 154 10000 else qq 127 10000)) lizards) shown = lizard_net.
Proof. vm_compute. reflexivity. Qed.
(** test_gs1_V, _E, _F *)
Example gs_lizards : on (gs 10 id_oracle lizard_test (qq 1 20) lizards SelNone) (fun r => match r with Net bn => Some (shown bn) | _ => None end) = Some lizard_net.
Proof. vm_compute. reflexivity. Qed.

(** ** Expectations the present code does not meet *)
(** test_sumover_var expects [0.5, 0.5]: the table was once normalised; now it is not (factor.py:323-369) *)
Example sumover_now : on (do f <- fA ;; sumover_var f Burglary) (fun f => dq (f_cpt f)) = Some [2; 2]%Q.
Proof. vm_compute. reflexivity. Qed.
(** test_sumout_var expects [0.8545, 0.1455, 0.055, 0.945], test_sumout_var_list [0.45475, 0.54525]: the same remark *)
Example sumout_now : on (do f <- fA ;; sumout_var id_oracle f Earthquake) (fun f => dq (f_cpt f)) = Some [1709 # 1000; 291 # 1000; 11 # 100; 189 # 100]%Q /\
  on (do f <- fA ;; sumout_var_list id_oracle f [Burglary; Earthquake]) (fun f => dq (f_cpt f)) = Some [1819 # 1000; 2181 # 1000]%Q.
Proof. vm_compute. auto 6. Qed.
(** test_marginal_ve_e_prior1 and _prior2 expect the prior: now NameError, since the factor of a root that is the target is
    never multiplied with the others (nor that of an observed root) and consolidate reads an undefined name (factorization.py:131-136; C14_name_error).
    The same for test_marginal_ve_e_prior_middle_ev, _prior_leaf_ev, _middle_prior_ev, which expect posterior probabilities *)
Example marginal_roots_now : marginal_ve_e id_oracle cmu Burglary [] = Raise NameError /\ marginal_ve_e id_oracle cmu Earthquake [] = Raise NameError /\
  marginal_ve_e id_oracle cmu Burglary [(Alarm, Yes)] = Raise NameError /\ marginal_ve_e id_oracle cmu Burglary [(JohnCalls, Yes)] = Raise NameError /\
  marginal_ve_e id_oracle cmu Alarm [(Burglary, Yes)] = Raise NameError.
Proof. vm_compute. auto 6. Qed.
(** test_gs_data expects {2: [0, 1, 4, 3]} on data/gs_data.txt.  With the p-values the present mi_test gives there (three or more
    conditioning columns are merged into one number and binned by equal width, so that 11 and 12 share a bin: C53) the blanket of column 2 grows to
    [0, 1, 3]; then column 1 is found independent given 0 and 3, and the shrink loop, which never changes S, goes round for ever (C57) *)
Definition gs_data_test : ptest := fun cols =>
  match find (fun p => if list_eq_dec name_eq_dec cols (map NInt (fst p)) then true else false)
    [([2; 0], 12%Z); ([2; 1; 0], 405%Z); ([2; 3; 0; 1], 6%Z); ([2; 4; 0; 1; 3], 1750%Z);
     ([2; 0; 1; 3], 119%Z); ([2; 1; 0; 3], 1299%Z)] with
  | Some p => Ok (Some (qq (snd p) 10000)) | None => Raise IndexError end.
Example gs_data_now : grow 6 gs_data_test (qq 1 20) 5 (NInt 2) [] = Ok [NInt 0; NInt 1; NInt 3] /\
  shrink_pass gs_data_test (qq 1 20) (NInt 2) [NInt 0; NInt 1; NInt 3] = Ok ([NInt 0; NInt 3], true) /\
  forall fuel, shrink fuel gs_data_test (qq 1 20) (NInt 2) [NInt 0; NInt 1; NInt 3] = Raise OutOfFuel.
Proof.
  split; [vm_compute; reflexivity|]. assert (P : shrink_pass gs_data_test (qq 1 20) (NInt 2) [NInt 0; NInt 1; NInt 3] = Ok ([NInt 0; NInt 3], true)) by (vm_compute; reflexivity).
  split; [exact P|]. induction fuel as [|f IH]; [reflexivity|]. cbn [shrink]. rewrite P. cbn [bind snd]. exact IH.
Qed.
