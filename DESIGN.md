# Formal model of pyBN in Rocq (Coq 8.16.1): design

## 1. Approach

* Every modelled Python function is a total Gallina function in `rocq/theories/`, written branch by branch.
  Exceptions are values (`res A := Ok a | Raise exn`); loops are folds or structural recursion, `while` loops take
  fuel and return `Raise OutOfFuel` when it runs out. Termination theorems say that some fuel is enough (and then
  every larger one); non-termination theorems say that no fuel is.
* Each model definition carries a comment with the file and lines it models, and the simplifications made.
* Specifications (`Spec*.v`) are small and do not use model helpers: a factor is read through the *documented*
  index formula `sum(value_index*stride)`; a network's joint distribution is the product of CPT entries read directly
  from `bn.F`; graph notions are inductive reachability relations; cliques, chordality, spanning trees are textbook definitions.
* `Conformance.v` is a check of the model, not of the properties: the project's own unit tests (factor operations, file reading, inference, samplers, Markov blankets,
  pc, gs and Chow-Liu on its lizard data) and the outputs kept in its notebooks, replayed on the model by computation; tests whose expectation the present code no longer meets are listed at its end.
* `Properties_*.v` contain the property theorems, `Print Assumptions` under each, and non-vacuity examples.
* The code has many defects. Where the natural claim is false, the property keeps the natural claim in its statement and
  the theorems say what the code does instead for *every* input, plus a `_refuted` theorem with a concrete network on which the
  natural claim fails. `_refuted` theorems are never the only evidence unless the claim is an existence claim about a bug.
* Model layering: pure factor algebra (`Factor.v`), networks (`BayesNet.v`), graph algorithms (`Graph.v`), inference
  (`Factorization.v`), learning (`ParamLearn.v`, `StructScore.v`, `Constraint.v`), sampling (`Sampling.v`), files (`IO.v`, `Text.v`),
  data utilities (`DataUtils.v`), integer program (`Ilp.v`). Where aliasing matters there is a separate heap model:
  `BayesNetHeap.v` (edge dicts, parent lists, the mutable default argument) and `CliqueTree.v` (Factor objects whose
  scope/card/stride are shared by `copy.copy`).

## 2. Trusted base

* Coq 8.16.1's kernel (and `vm_compute` for closed examples).
* Axioms: `Print Assumptions` under every property theorem. All theorems outside `Properties_Real.v`, `Properties_Real2.v`, `Properties_Real3.v`, `Properties_Real4.v`, `Properties_Real5.v`, `Properties_Fitness.v` and `Properties_Rows.v` print
  "Closed under the global context". Two theorems of `Properties_Rows.v` (C153_constraint, C153_search) use only the standard library's `functional_extensionality_dep`, where a test is passed to an algorithm as a function. `Properties_Real*.v` (logarithmic scores, p-values, distances, entropies) use the standard library's `Reals` axioms only:
  `ClassicalDedekindReals.sig_forall_dec`, `ClassicalDedekindReals.sig_not_dec`, `FunctionalExtensionality.functional_extensionality_dep`,
  and `Classical_Prop.classic` where the library's analysis lemmas use it. None of our own.
  (`vcheck` additionally lists seven `Coq.ssr.ssrunder` constants, in the environment through library imports and used by no theorem, and the sealed constants of
  `Coq.Reals.Rdefinitions` (R, R0, Rplus, Rlt, ...), which the standard library defines behind an opaque signature: they have bodies there and Print Assumptions does not list them.)
* Reading of the code. The code is not run. Assumed environment: Python 2.7 with the numpy < 1.12 of the time
  (float shapes/indices with integral values accepted, because `from __future__ import division` makes strides floats).

### Numbers
Floats are modelled by exact rationals (`Qc`, canonical rationals with Leibniz equality); `round(x,n)`/`np.round` are explicit
functions on rationals. Log-scores use real numbers. Rounding of IEEE arithmetic is modelled for `marginal_ve_e` and `ve_map` only
(`Float.v`: the same programs with a rounding function after every product and sum; `SpecFloat.binary64` is round-to-nearest-even with
53 bits and gradual underflow, overflow mapped to 0 and shown not to occur); everywhere else arithmetic is exact.

### Names, dicts, sets
Node names and values are `name := NInt nat | NStr string`. Dicts are association lists in insertion order;
where the program iterates a `set` or a Python-2 `dict`, the iteration order is an oracle (`good o`: it returns a
permutation of its input, a different one at every call site and call); theorems quantify over every such oracle.

### Randomness, data and external libraries
Random draws are a stream argument; theorems hold for every stream. Score functions and independence tests are arguments
(functions of the list of columns, which may also answer nan or raise) when the property holds for all of them.
The following libraries are represented by their documented contract, as parameters of the model or spec-level functions:

| library call | contract assumed |
|---|---|
| `nx.find_cycle(G, source=u)` | succeeds iff a directed cycle is reachable from u (`would_cause_cycle`, C35) |
| `nx.is_chordal` | says yes only to chordal graphs (C60); completeness is not needed |
| `nx.chordal_graph_cliques` | for a chordal graph: its maximal cliques, once each, in some order (`clique_list`; `CliqueRef.all_cliques_ok` shows that such a function exists) |
| `nx.dfs_postorder_nodes` | a permutation of the vertices (C94) |
| `np.random.choice(p=…)` | cumulative sum and first index with the draw below (`Sampling.v`) |
| `np.histogramdd`, `np.linspace`, `np.digitize` | documented formulas on rationals (`DataUtils.v`) |
| `json.dump` / `json.loads` | effect on value trees: object keys become strings, lists and numbers survive (`IO.v`) |
| pulp | the integer program is modelled; the solver is not: an optimum is any feasible point of least objective (C61) |
| scipy `chi2.pdf` | its formula on the reals (`MiReal.v`) |

Not modelled: plotting, printing and debug output, IEEE rounding outside `Float.v`, running time and memory, text layer of the json library,
`sklearn`/`pandas` conversions, `gobnilp.py` (a call into an external package), and the `clustergraph.py` body after the line that always
fails.

## 3. Plan and proof idea per property

| id | modelled how / proof idea |
|---|---|
| C01 | Factor.__init__ modelled with BayesNet accessors; spec reads the CPT by mixed radix index; proof by radix lemmas. |
| C02 | multiply_factor loop with its Python index arithmetic (Z, negative-wrap getitem); invariant radix(asg)=i, j,k = dot products. |
| C03 | corollary of C02 through the pointwise characterisation. |
| C04 | model returns both objects after the call (card update and alias); theorem for the good case, _refuted witness for the other. |
| C05 | sumout_var loop; layout split pre++v::post and i=q*p+r. |
| C06 | iteration of C05 and commutation of finite sums. |
| C07 | as C05 with max; refutation witness for negative entries. |
| C08 | reduce_factor chunk copy; error branches as theorems. |
| C09 | corollary of C08/C02/C05 pointwise. |
| C10 | corollary of C02/C05 and ring distributivity. |
| C11 | perturb and normalize modelled on Qc; group sums. |
| C12 | invariant wf by induction over op lists, each op with its own hash oracle. |
| C13 | sum_product_eliminate_var on a list of factors, product semantics. |
| C14 | whole marginal_ve_e modelled; induction over elimination order; raising cases characterised. |
| C15 | sum of the joint over a DAG is 1 by induction on a topological order; rounding lemma. |
| C16 | ve_map with traceback; backward invariant. |
| C17 | as C16, consolidation. |
| C18 | corollary of C14 (spec side does not mention the oracle). |
| C20 | topsort worklist model; reachability. |
| C21 | counterexample + forest theorem + weak parent theorem. |
| C22 | set_structure model. |
| C23 | cpt_indices model; mixed radix digits. |
| C24 | stride models compared. |
| C25 | moralized_edges model; iff. |
| C26 | markov_blanket model; iff and symmetry. |
| C27 | heap-level model of E/F (parents lists as shared references for the mutable default). |
| C28 | heap model: disjoint references after deepcopy. |
| C29 | counting lemmas. |
| C30 | are_class_equivalent modelled with the TypeError. |
| C31 | structure_distance modelled; counting over edge sets. |
| C32 | same model. |
| C33 | Prim loop model; invariants. |
| C34 | cut property exchange argument. |
| C35 | spec-level cycle = reachability; model uses documented find_cycle answer. |
| C36 | hc state machine for every score function; invariants acyclic/agree/restriction, fuel bound. |
| C37 | refutation witness on model with the debug flag. |
| C38 | tabu list invariant; refutations for k<5 and k>5. |
| C39 | hc_rr state machine; non-termination of empty deletion for every fuel. |
| C40 | mle_estimator model over row lists. |
| C41 | same. |
| C42 | refutation + correct theorem when V=0..n-1. |
| C43 | bayes_estimator model. |
| C44 | forward_sample with a draw stream. |
| C45 | gibbs_sample with a draw stream. |
| C46 | lw_sample with a draw stream. |
| C47 | random_sample with a draw stream. |
| C48 | JSON value tree (object keys become strings); text layer of json library not modelled. |
| C49 | same; KeyError. |
| C50 | read_bif line/token machine. |
| C51 | replace_strings with fixed width truncation. |
| C52 | linspace/digitize on rationals. |
| C53 | np.histogramdd bin formula on rationals. |
| C54 | string concatenation injectivity. |
| C55 | pc loop with an arbitrary independence oracle; a column's only separable partner is found (invariant: the neighbour list of x is complete until then). |
| C56 | resolve_markov_blanket with oracle. |
| C57 | gs with oracle; divergence for every fuel. |
| C58 | iamb step. |
| C59 | orient_edges_CS. |
| C60 | make_chordal as elimination game; chordality by cycles. |
| C61 | constraint system as a set of integer vectors. |
| C62 | heap of Factor objects; `live`/`holds` invariant (no two live factors share parts); product of the assigned tables by induction over `fmul_all`, the aliased first factor tracked through `f *= f`; #cliques < #nodes by an elimination order, so some clique holds two nodes. |
| C63 | same heap: the message's parts are the sender's parts; `sumout_var` edits them in place. |
| C64 | flat_cpt loops; windows compared to row sums. |
| C65 | f_var bookkeeping of the factor model. |
| C66, C67 | heap model: the constructor stores the caller's dict; setters frame lemmas. |
| C68 - C70 | mle_estimator with the nodes argument and counts flag; order of parents rewritten to nodes() order. |
| C71 | naive_bayes structure + estimator for target 0 .. n-1. |
| C72 | mle_estimator then samplers; a parent configuration without data gives a zero row. |
| C73 | the metric argument is not an argument of any score call in the three searches. |
| C74 | pc starts at conditioning-set size 1. |
| C75 | orient_edges_MB / gs2 edge sets for every test. |
| C76 | iamb shrink loop, Hoare-style `safe` rules over an arbitrary test. |
| C77 | feature_selection code path raises for every input. |
| C78 - C80 | read_bif / read_json loops: non-termination = no fuel suffices; text machine over lines and tokens. |
| C81 | format dispatch on substrings. |
| C82 | read_mat loop. |
| C83 - C88 | numpy histogram model: bin index formula, cells counted; merged code of conditioning columns. |
| C89 | are_independent compares in the wrong direction. |
| C90 | cpt_str_idx loop against mixed radix digits. |
| C91 | CliqueTree.parents loop on the tree built by mst. |
| C92, C93 | first-fit assignment by induction over the clique list; the AssertionError iff a clique gets nothing. |
| C94 | exact_bp body on a built tree: messages to self square the root belief or leave it; heap invariant. |
| C95 | upward pass: invariant over `schedule`s (product of the potentials of the cliques that have not sent, summed over what they lack); any order along the tree is a running-intersection schedule. |
| C96 | cliques of the moral graph's edge list contain no isolated node. |
| C97 | Dirac's theorem (a chordal graph has a perfect elimination order, `Dirac.v`), hence a junction tree exists (`Junction.v`); counting: total separator size of any spanning tree is at most sum(|C|) - #vertices, with equality iff running intersection; mst minimality (C34) finishes. |
| C98 | the histogram arithmetic over the reals (`MiReal.v`); contingency cells rewritten to row frequencies (`RealTable.v`); Gibbs' inequality with the equality case (`RealMi.v`); symmetry by transposing the histogram (`RealSym.v`). |
| C99 | chi2.pdf at 0 by cases on the degrees of freedom; density bounds near 0 (`RealChi.v`); two concrete tables for the reversal. |
| C100 | the density's peak bounded by Stirling-free induction on Gamma (k/2) (`RealChi.v: peak_many`). |
| C101 | monotonicity of x^(k/2-1) exp(-x/2) on each side of k-2. |
| C102 | scores unfolded over `flat_cpt`; per row, log is concave (tangent line at 1/card) so uniform rows maximise; entries*ln(n)+const comparison. |
| C103 | three interpreter modes (as shipped, import added, `python -O`); Gibbs inequality per row for KL; sums of squares. |
| C104, C105 | histogram bins from `unique_bins`/`amax`; plug-in entropies in SpecReal; smoothing error by ln bounds. |
| C106 | `chow_liu` with the pair weight as a parameter (shipped: TypeError); single descending scan `cl_run`; spec `tree_on`, `spans_columns`, `sum_weight` in SpecTree. Induction on the sorted edge list. |
| C107 | object as a record, calls as a state machine (`run_calls`); counts through `hist_contingency`; marginals by counting rows by code; cache invariant over histories. |
| C108 | fast_iamb with CPython's set-iterator size check, list iteration under removal and fuel for the while loop; divergence by an invariant (candidates non-empty, disjoint from the blanket). |
| C109 | control flow up to the failing name, with the failing statement inside its loop. |
| C110 – C113 | law of the samplers without measure theory (SpecLaw): a uniform draw is an equiprobable cell of a grid refining all tables plus an arbitrary position in the cell; the theorems average over all cells for all positions, which is the exact expectation. Proof: the cells giving an assignment form a box of volume joint / likelihood (C44, C46), independence of rows, Chebyshev. |
| C114 | `random_sample` composed with `mle_estimator`; ratio of two counts of independent rows, C41 for the learned entry, union bound over the entries. |
| C115 | `Float.v`: factor product, summation and `marginal_ve_e` with rounding; simulation between the exact and the rounded run (each cell within (1-u)^k, (1+u)^k, k counted along the elimination), then Bernoulli bounds; `binary64` proved accurate to 2^-53 above 2^-1022. |
| C116 | `ve_map` with rounding; the stored products stay within (1±u)^k of the exact maxima, argmax compared along the traceback; counterexample to exactness evaluated on doubles; with prob=True the reported number is the five-decimal rounding of a number within (1±u)^n of the joint, and NameError is raised on exactly the same networks as in exact arithmetic (shape of the factors does not depend on the numbers). |
| C117 | Spec: two networks with the same frame and bounded row differences (`SpecSens.v`); total variation of the joints bounded by induction along a topological order, then printed marginals, posteriors, MAP and relative errors. |
| C118 | `random_sample`, `mle_estimator`, `marginal_ve_e`/`ve_map` composed; C114 for all entries at once gives a learned network with the same frame, C117 bounds its answers. |
| C119 | `ilp_map` with weights `ilp_weight` (LogReal.v, real ln then rounding to 3 decimals); C61 plus an error bound of 1/2000 per node. |
| C120 | `to_log`, `from_log` (LogReal.v: exact ln/exp over R, rounding to 5 decimals modelled, -inf and nan as constructors); mean value bounds for exp; `maxout_var`/`multiply_factor` applied to the logged table. |
| C121 | `mb_fitness` (MbFitness.v) over an arbitrary test function returning nan, inf, a number or an exception; induction over the two set loops. |
| C122 | Factor objects on a heap (FactorHeap.v: addresses of scope, card and stride; operators return the left operand); meaning of expressions in SpecObjects.v; induction with a disjointness invariant. |
| C123 | `Factorization`, `marginal_ve_e`, `ve_map` on the same heap; lockstep simulation with the value model of Factorization.v, so C13-C18 apply to the program with in-place updates. |
| C124 | exact inference on arbitrary queries (Factorization.v) | induction on the evidence loop (QueryErr.v): either all pairs are right or ValueError |
| C125 | ve_map with target and prob (`ve_map_call`) | from the run lemma of C16/C17; refutation by a two-node network for all set orders |
| C126 | histories of Factorization operators (`fz_history`, FzHistory.v), `nodes` argument | induction on the history against SpecHistory.v |
| C127 | the hc and tabu loops of StructScore.v, any score | a potential (SpecClimb.v) that each addition/deletion raises by its gain; pigeonhole on parent lists (StructClimb.v) |
| C128 | hc run with the real-number model of mutual_information (`data_score`, HcReal.v) | C127 potential + C98/C104 bounds; ln 3 by repeated squaring for the copied column |
| C129 | `orient_edges_gs2`, `iamb` (Constraint.v); `uncoupled`, `compared`, `listings`, `dependent_meeting`, `earlier` (SpecConstraint.v) | invariant over the processed pairs (Orient.v) |
| C130 | hc_rr as a sequence of climbs (the loop of hc) and random walks, for every stream of draws; relation `restarts` in SpecScore.v; loop decomposed by induction over its passes |
| C131 | bayes_estimator against mle_estimator | SpecLearn.v (rel_freq, prior_weight, within), BayesZero.v (the normalisation fails exactly on an empty group), Properties_Bayes.v: algebra on the exact entries of C41/C43 |
| C132 | `nodes=` | SpecLearn.v (same_columns, read_columns), Properties_Nodes.v: congruence for non-dependence, frame lemma for the other nodes, reduction of closed prefixes to the full estimator |
| C133 | errors of parameter learning | Properties_LearnErr.v: the success lemmas of C41/C43, and the first failing step otherwise |
| C134 | d-separation, moral graph, Markov blanket | SpecMarkov.v (active trails), MarkovFacts.v (sums over ancestral sets; the sum splits into two factors along a cut), MarkovSep.v (d-separation gives a cut in the families of the ancestors), Properties_Markov.v |
| C135 | only ancestors matter | MarkovFacts.v: ancestral_prob (barren nodes sum to 1, in any topological order), Properties_Markov.v |
| C136 | tables are conditionals | MarkovSep.v: local_markov, by the sum over the ancestors of the evidence |
| C137 | gs blankets, faithful test | FaithfulFacts.v (d-separation by a blanket, adjacency and co-parents are active), FaithfulMain.v (grown_contains, member_dep, other_indep); PerfectTest.v proves the boolean test of SpecConstraint.v faithful |
| C138 | exact skeleton | FaithfulFacts.v: separating_set (a proper subset of the smaller blanket separates non-adjacent members) |
| C139 | pc keeps adjacencies | from C55_skeleton and the definition of faithful |
| C140 | iamb never exact | grow: the best candidate is connected while a blanket member is missing; shrink: first element decided by the d-separation given the rest |
| C141 | Bayesian learning from own samples | C131 (distance of the two estimators shrinks with the group count) plus the ratio law of C114, which now also reports that the group is large; default prior: C131_difference gives the midpoint for a root; with parents the weight is 1/(1 + q f), f the frequency of the parents' values, which the ratio law brings near P(parents) |
| C142 | omitted arguments of add_node, networks from nothing | HeapDefaults.v: Hoare triples over the heap monad for an invariant (the default table and values objects stay empty, no list that is ever appended to is one of them, edge dicts never gain a key) |
| C143 | corollaries of the outcome theorem C124: sums over assignments regrouped (swap, total probability), monotonicity of sums and of rounding, invariance of `sum_over` under permutation of the nodes. |
| C144 | `renamed r s bn bn'` relates two networks; joint, sums over assignments, evidence and connectedness are carried along the renaming; then C124 and C16. Samplers: ancestral samples are carried back along the renaming and are unique (C44, C46). |
| C145 | FzTrace.v models traceback_map with its effects, and refresh; SpecHistory.v has same_on, givens. Sums and observations commute into one nested sum at the observed values; VEMap's traceback invariant; the event probability by pinning nodes one by one; Properties_Trace.v |
| C146 | order of presentation; saving and loading | answers are functions of the joint distribution and the family graph (query_ends, C143), which a permutation of nodes and dicts keeps; C48 for the file; C44_misordered_raises for sampling |
| C147 | Invariant over elimination and evidence: every factor records cardinality 0 for the variable, so eliminating or conditioning it divides by zero; samplers draw from an empty list. |
| C148 | `send_initial_message` is related to `send_message` step by step on a new tree (belief and potential share their parts), so C63's facts carry over; the second message fails at its first summed-out variable. |
| C149 | `Hashing.v`: CPython's lookup (identity, then stored hash and `__eq__`); induction over the entries, with C30's facts about `__eq__`. |
| C150 | `Looking.v`: printing, len, indexing; strides of a node's own table determine the variable elected after its removal; C126's operations counted. |
| C151 | `BifLayout.v`: a line is used through `split`, `split` after `replace` and `in`; each of these depends only on the blank-separated words of the line (`layout`, SpecIO.v), by induction on the layout; the reader's loops are then equal by induction on the fuel. |
| C152 | `Properties_Convention.v`: assignments of the two networks correspond when they give the same named values; sums over corresponding values are permutations of each other, so the marginals agree; then C124 and C16 for both networks. |
| C153 | `Properties_Rows.v`: np.unique sorts, so codings, bin counts and histograms (counts of rows) are invariant under permutation of the rows (`RowOrder.v`); the tests, hence the learners they drive, see equal values; the score-based searches see equal mutual information; the estimators by C41 and C43, whose formulas count rows. |

## 4. Findings (all proved about the model)

Correct for all inputs: factor algebra (C01-C13), `marginal_ve_e` and `ve_map` on valid networks (C14-C18), `cpt_indices`, `moralized_edges`,
`markov_blanket`, `mst` (spanning and minimum), `would_cause_cycle`, `make_chordal` (chordal supergraph), acyclicity of hc/tabu/hc_rr results, the junction
tree property of `CliqueTree`, integer points of `ilp_map`, MLE counts in the ordinary case, bayes_estimator normalisation.

Defects, each with a theorem:
* `multiply_factor` corrupts its argument's `card` when the argument is the larger factor (C04).
* `maxout_var` starts from 0, so log tables are wrong (C07); `flat_cpt(by_parents=True)` overlapping windows (C64).
* `topsort` is not a topological order on DAGs that are not forests (C21).
* network equality raises TypeError (C30); `incorrect_direction_edges` is always 0 (C32).
* `hc`: debug flag changes the result (C37); metric ignored (C73); restriction ignored by restarts, which may also never end (C39); F-rev: the gain of a
  reversal is computed from `p_dict[v]` for u's family and from `[u for i in ...]` (SpecScore.v, StructScore.v); tabu length is fixed at 5 (C38);
  on binary data only the first parent counts (C83, C84), least informative parent preferred (C86).
* `mle_estimator` uses names as column numbers (C42), CPT order follows nodes() (C68), `counts=True` still edits (C69), partial learning wipes others (C70), zero rows (C72).
* `gibbs_sample` is not a chain and its frequencies do not sum to 1 (C45); samplers need nodes() topological (C44, C47).
* `.bn` round trip loses integer names (C49), order (C48); malformed files read as empty (C80); `.bif`: last variable's arity for all rows (C50), labels ignored (C79),
  truncated file loops (C78), names containing keywords misread; `read_mat` never reads edges (C82); dispatch by substring (C81).
* `replace_strings` truncates codes (C51), `discretize` off-by-one interval (C52), histograms merge gapped levels (C53), merged columns (C54, C85), three-column MI/entropy constant (C87),
  `mi_from_en`, `chi2_test` raise (C87, C88), `are_independent` inverted (C89).
* `mi_test` returns twice the chi-square density: nan/inf/1/0 on exactly independent columns by degrees of freedom, above 1 possible, always "dependent" from 140 degrees on, not monotone (C99-C101).
* Information scores do not look at data: uniform tables maximise them, BIC's penalty uses log(edges), more entries win eventually (C102).
* Parameter distances never return as shipped; `euclidean` = `manhattan`, `minkowski` always squares, `js_divergence` cannot work (C103).
* Entropy is nan for columns with gaps in the codes; three-column entropy and conditional MI are constant 0 on 0/1 data but right for codes 1..k, the codes `discretize` gives (C104, C105).
* chow_liu always raises; repaired, it returns a spanning tree that is maximal for at most three columns but misses the second heaviest pair when the two heaviest are disjoint (C106).
* EmpiricalDistribution refuses names, adds 1/1000 to every cell of the joint, and caches marginals under names that may change (C107).
* fast_iamb and lambda_iamb never return: RuntimeError, an endless loop, or undefined names (C108). The same holds for mmpc, mmhc, TAN, predict, feature selection, mdbn and the Bayesian scores (C109).
* gibbs_sample is biased by the factor (n-burn-1)/(n-burn): it counts the states burn+1..n-1 but divides by n-burn (C113).
* With doubles ve_map can return an assignment that is strictly less probable than another one (two products round to the same double; C116), but never by more than the factor 1-1e-9.
* marginal_ve_e raises NameError whenever all parents of the target are observed in a network with two or more nodes (C134_parents_observed_raises), which generalises the failure for roots: the target's own table is then a separate factor. These are exactly the queries whose answer can be read off the table (C136).
* Even with a test that answers exactly the d-separations of a graph: gs returns the right skeleton or never returns (C137, C138), its directions can form a cycle (C138_directions_refuted), and iamb never records a non-empty Markov blanket correctly, because its shrinking phase removes the true members (C140).
* bayes_estimator with its default equivalent sample size (as many as there are rows) is not consistent: the table of a root node converges to the midpoint between the truth and the uniform table (C141_default_refuted, entries of other nodes to w/k + (1-w)p with w = 1/(1 + q P(parents)): C141_default_limit); with a fixed one it is consistent (C141).
* A network made by BayesNet() can never get an edge: add_node does not create an edge list, so add_edge raises KeyError for every pair (C142).
* An observation applied to a Factorization after a maximisation is recorded but not used by traceback_map, which can return values of probability 0 (C145).
* A network that can be sampled may, after write_bn and read_bn, list a node before its parent, and forward_sample then raises KeyError; exact queries are unaffected (C146).
* A node added without values (add_node(rv), or add_edge to an unknown node) makes every query about the *other* nodes raise ZeroDivisionError, and asking for that node itself returns an empty array (C147).
* After one message from clique i to a clique lacking one of i's variables, i can never send to it again: KeyError (C148).
* `d[copy_of_bn]` raises TypeError when d has bn as a key: `__hash__` agrees and `__eq__` fails (C149).
* A factor's printed form is only its variable and scope: P(C | A, B) summed over C prints as `A | B`, and maxed out over C it still prints `C | A, B` (C150, C65).
* read_bif is insensitive to indentation, tabs and CR LF, but not to a missing blank next to a parenthesis: `probability (Cancer | ...)` looks up a node called `|` (C151_glued_refuted, KeyError).
* Parameter learning works only on networks whose nodes are column numbers (C133): every network read from a BIF file, whose nodes are strings, raises IndexError.
* bayes_estimator's docstring says its result and that of mle_estimator converge as the data grow. With the default equivalent_sample = len(data) the prior's weight is at least 1/(1+q) for any number of rows (C131_refuted: 0.625 against 0.75 for every n).
* bayes_estimator(nodes=[v]) and mle_estimator(nodes=[v]) ignore the data of v's parents (C132): the row is counted for whichever parent configuration comes first in a set. The set order is now part of the model (`cell_offset`).
* hc_rr does not keep the best graph: after a restart it can end in a local optimum that scores lower than the one it left (C130_never_worse_refuted). A climb stopped by max_iter, in particular one stuck at an unperformed reversal (debug=False), also uses up the remaining restarts (C130_shape).
* iamb can return a cyclic graph, even a network whose node list is empty (0 -> 2 and two unrelated columns, perfect test); which of two directions survives depends on the iteration order of a set (C129).
* `hc`: the score of a node without parents is its entropy, with parents the mutual information, and the search minimises it: unrelated columns get joined first, copies of a column never (C128). With debug=True reversals can alternate for ever (C127).
* `ve_map(target=t)` is the value of t in the most probable joint assignment, not the most probable value of t (C125).
* `Factorization - (v, x)` accepts a variable no factor mentions, with any value, and records it (C126).
* `h = f*g` overwrites f; `(f/x)*(f/y)` is the square of the sum over both variables; after `f*g` with g wider, `f/x` breaks g (KeyError) because the two share one card dict (C122). Exact inference is not affected (C123).
* ilp_map rounds its weights to three decimals, so its optimum can be strictly less probable than another assignment (C119), never by more than the factor 1 - n/1000.
* The factor operations are wrong on tables of logarithms: maximising gives probability 1 everywhere, multiplying gives numbers of at least 1 (C120).
* mb_fitness with one target always answers 0, raises ZeroDivisionError as soon as one p-value rounds to 0, and gives the largest scores to the worst blankets but never a score near 0 to a perfect one with something outside (C121).
* `pc` starts at level 1 and mutates lists while iterating (C55, C74); `gs` can loop forever (C57); `iamb` adds the last candidate and shrinks the wrong ones (C58, C76); `feature_selection` always raises (C77).
* `ilp_map` ignores evidence and returns None (C61).
* Clique trees: doubled tables (C62), sender corrupted by a message (C63), `parents` returns the vertex (C91), constructor fails on some networks (C93), `exact_bp` NameError and wrong when repaired (C94), isolated nodes lost (C96).

## 5. Mutation testing

`seeded/LOG.jsonl`: one line per edited model definition, with the theorems that failed. Mutants that survived led to tightened theorems; the log names them.
