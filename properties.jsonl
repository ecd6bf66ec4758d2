{"id": "C01", "title": "Factor construction lays a node's CPT out first-variable-fastest", "statement": "Factor(bn, v) has scope [v]+parents(v), the cardinalities of the BayesNet, and a table such that for every assignment of value indices to the scope, the cell found by the documented formula sum(value_index*stride) is the BayesNet's CPT entry for that assignment (v varying fastest, then the parents in order); distinct assignments hit distinct cells and every cell is hit.", "quantifier": "every well-formed BayesNet, every node, every assignment", "why_tests_cant": "layout must be right for every number of parents and every combination of cardinalities", "anchors": ["pyBN/classes/factor.py:Factor.__init__", "pyBN/classes/bayesnet.py:BayesNet.cpt,scope,card,parents"]}
{"id": "C02", "title": "multiply_factor is the pointwise product over the union of scopes", "statement": "After f.multiply_factor(g) the scope of f is the union of both scopes without repetition, and for every assignment f'(a) = f(a)*g(a) - whichever of the two scopes is larger and in whatever order Python iterates its sets and dicts.", "quantifier": "every pair of well-formed factors that agree on shared cardinalities, every assignment, every set/dict iteration order", "why_tests_cant": "unbounded table shapes and hash orders", "anchors": ["pyBN/classes/factor.py:Factor.multiply_factor,__mul__"]}
{"id": "C03", "title": "Factor multiplication is commutative and associative as a function", "statement": "f*g and g*f, and (f*g)*h and f*(g*h), denote the same function of assignments (tables may be laid out differently).", "quantifier": "every triple of compatible well-formed factors and every iteration order", "why_tests_cant": "algebraic law over all inputs", "anchors": ["pyBN/classes/factor.py:Factor.multiply_factor"]}
{"id": "C04", "title": "multiply_factor leaves its argument usable", "statement": "Multiplying f by g should leave g a valid factor denoting the same function. True when f's scope is at least as large as g's; false otherwise: g.card is extended with f's variables (and shared with f), after which using g as the larger operand produces a table of the wrong size.", "quantifier": "every pair of factors", "why_tests_cant": "the corruption depends on relative scope sizes and only shows on later reuse", "anchors": ["pyBN/classes/factor.py:Factor.multiply_factor"]}
{"id": "C05", "title": "sumout_var sums the variable out pointwise", "statement": "After f.sumout_var(v) the scope is the old scope without v (order kept) and for every assignment of the rest f'(a) = sum over v's values x of f(a[v:=x]).", "quantifier": "every well-formed factor, every variable of its scope at any stride position, every assignment", "why_tests_cant": "index arithmetic must be right for every stride position and every cardinality (including 1)", "anchors": ["pyBN/classes/factor.py:Factor.sumout_var,__div__"]}
{"id": "C06", "title": "Summing out a list is order-independent, and sumover_var equals summing out all the others", "statement": "sumout_var_list over any permutation of the same variables gives the same function; sumover_var(v) gives the same function as summing out every other scope variable, with scope exactly [v].", "quantifier": "every factor, list of distinct scope variables, permutation", "why_tests_cant": "quantifies over all permutations and shapes", "anchors": ["pyBN/classes/factor.py:Factor.sumout_var_list,sumover_var"]}
{"id": "C07", "title": "maxout_var takes the pointwise maximum (non-negative tables)", "statement": "For a factor with non-negative entries, after f.maxout_var(v): f'(a) = max over x of f(a[v:=x]). For tables with negative entries (e.g. after to_log) this is false: an all-negative column yields 0.", "quantifier": "every well-formed factor, every scope variable, every assignment", "why_tests_cant": "all shapes; the sign condition is invisible in probability-only tests", "anchors": ["pyBN/classes/factor.py:Factor.maxout_var,to_log"]}
{"id": "C08", "title": "reduce_factor conditions the table on rv=val", "statement": "After f.reduce_factor(v,val) the scope loses v and f'(a) = f(a[v:=index of val]); if val is not one of v's values a ValueError is raised, if v is not in the factor a KeyError is raised.", "quantifier": "every well-formed factor, scope variable, value, assignment", "why_tests_cant": "all shapes and all stride positions", "anchors": ["pyBN/classes/factor.py:Factor.reduce_factor,__sub__"]}
{"id": "C09", "title": "Evidence order does not matter", "statement": "reduce_factor_by_list over any permutation of the same evidence (distinct variables) gives the same function; reducing commutes with multiplying and with summing out a different variable.", "quantifier": "every factor, evidence list and permutation", "why_tests_cant": "all permutations", "anchors": ["pyBN/classes/factor.py:Factor.reduce_factor_by_list,reduce_factor"]}
{"id": "C10", "title": "Summation distributes over products (the law variable elimination relies on)", "statement": "If v is in f's scope and not in g's, summing v out of f*g equals (f with v summed out) * g.", "quantifier": "every pair of compatible factors", "why_tests_cant": "algebraic law", "anchors": ["pyBN/classes/factor.py:Factor.sumout_var,multiply_factor"]}
{"id": "C11", "title": "normalize produces conditional distributions", "statement": "After normalize() every group of entries sharing the same values of all variables but the stride-1 variable sums to exactly 1 (exact arithmetic) and every entry is positive, for non-negative input (even all-zero rows); an entry x becomes (x+1e-7)/(sum of its group, each entry plus 1e-7); a scalar factor becomes 1. A table whose length is not a multiple of the number of values raises IndexError, a variable without values ValueError.", "quantifier": "every well-formed non-negative factor", "why_tests_cant": "every shape, including all-zero groups", "anchors": ["pyBN/classes/factor.py:Factor.normalize,perturb"]}
{"id": "C12", "title": "Factor representation invariant is preserved by every history of operations", "statement": "Starting from Factor(bn,v), any sequence of multiply, sumout, maxout, sumover, reduce keeps: no repeated scope variable, strides = running products of cardinalities (hence integral), table length = product of cardinalities, card/stride keys = scope.", "quantifier": "every finite history of operations with valid arguments, every iteration order at every step", "why_tests_cant": "unbounded histories", "anchors": ["pyBN/classes/factor.py:Factor"]}
{"id": "C13", "title": "One sum-product elimination step preserves the joint", "statement": "sum_product_eliminate_var(v) replaces the list of factors by one whose product at every assignment is the sum over v of the old product, and v no longer occurs in any scope.", "quantifier": "every list of well-formed compatible factors, at least one mentioning v", "why_tests_cant": "all networks", "anchors": ["pyBN/classes/factorization.py:Factorization.sum_product_eliminate_var,relevant_factors,irrelevant_factors"]}
{"id": "C14", "title": "marginal_ve_e computes P(target, evidence)", "statement": "For every BayesNet, target and evidence, when marginal_ve_e returns, the (unrounded) vector at x is the sum of the joint over all assignments with target=x agreeing with the evidence, rounded to 4 decimals. It should always return; in fact it raises NameError whenever more than one factor is left (e.g. every root target in a network with two or more nodes).", "quantifier": "every well-formed BayesNet, target, evidence dict", "why_tests_cant": "exponentially many networks and evidence sets", "anchors": ["pyBN/inference/marginal_exact/ve_marginal.py:marginal_ve_e", "pyBN/classes/factorization.py:Factorization"]}
{"id": "C15", "title": "marginal_ve_e without evidence returns a probability distribution", "statement": "On an acyclic network with normalised non-negative CPTs, the unrounded marginal is non-negative and sums to 1, and rounding moves each entry by at most 0.00005. With evidence it is the unnormalised P(target,evidence): it does not sum to 1.", "quantifier": "every normalised network, target", "why_tests_cant": "all networks", "anchors": ["pyBN/inference/marginal_exact/ve_marginal.py:marginal_ve_e"]}
{"id": "C16", "title": "ve_map returns a most probable explanation", "statement": "The assignment returned by ve_map(bn, evidence) agrees with the evidence, assigns every node one of its values, and no other assignment agreeing with the evidence has a larger joint probability.", "quantifier": "every well-formed network with non-negative CPTs, every evidence dict", "why_tests_cant": "global optimality over exponentially many assignments", "anchors": ["pyBN/inference/map_exact/ve_map.py:ve_map", "pyBN/classes/factorization.py:Factorization.max_product_eliminate_var,traceback_map"]}
{"id": "C17", "title": "ve_map(prob=True) returns the probability of that explanation", "statement": "With prob=True the returned number is the joint probability of the returned assignment rounded to 5 decimals, when it returns; it raises NameError when more than one constant factor is left (e.g. any evidence on a network of more than one node eliminated into several components).", "quantifier": "every network and evidence", "why_tests_cant": "all networks", "anchors": ["pyBN/inference/map_exact/ve_map.py:ve_map", "pyBN/classes/factorization.py:Factorization.consolidate"]}
{"id": "C18", "title": "Exact inference does not depend on hash order", "statement": "The vector returned by marginal_ve_e is the same whatever order Python iterates sets and dicts.", "quantifier": "every pair of iteration orders", "why_tests_cant": "hash orders cannot be enumerated by tests", "anchors": ["pyBN/inference/marginal_exact/ve_marginal.py:marginal_ve_e"]}
{"id": "C20", "title": "topsort terminates and lists exactly the vertices reachable from the roots, once each", "statement": "For every edge dict whose children are all keys, topsort returns without repetition exactly the vertices reachable from the parentless ones (from root if given); on an acyclic graph that is every vertex; vertices on or only below directed cycles are silently dropped.", "quantifier": "every finite edge dict (cyclic or not)", "why_tests_cant": "all graphs", "anchors": ["pyBN/utils/graph.py:topsort"]}
{"id": "C21", "title": "topsort is a topological order", "statement": "Every vertex should be listed after all of its parents. False in general (it is a breadth-first order): a DAG with 3 vertices is a counterexample. True for every forest (each vertex has at most one parent), and every non-root vertex always comes after at least one parent.", "quantifier": "every acyclic edge dict", "why_tests_cant": "needs the right DAG shape; forests always pass", "anchors": ["pyBN/utils/graph.py:topsort"]}
{"id": "C22", "title": "set_structure derives parents consistently with the edges", "statement": "After BayesNet(E,value_dict) on an acyclic E: nodes() is every key once, u is in parents(v) iff v is in children(u), CPTs are empty, values come from value_dict.", "quantifier": "every acyclic edge dict", "why_tests_cant": "all graphs", "anchors": ["pyBN/classes/bayesnet.py:BayesNet.set_structure,__init__"]}
{"id": "C23", "title": "cpt_indices returns exactly the matching CPT rows", "statement": "cpt_indices(target, val_dict) is exactly the set of positions of target's CPT whose scope assignment agrees with val_dict; with every scope variable given there is exactly one. A value unknown to the network is not rejected: it silently selects the rows of the last value.", "quantifier": "every network, target, partial assignment", "why_tests_cant": "all shapes and subsets", "anchors": ["pyBN/classes/bayesnet.py:BayesNet.cpt_indices,value_idx,stride"]}
{"id": "C24", "title": "BayesNet.stride and Factor strides agree", "statement": "bn.stride(rv,n) equals Factor(bn,rv).stride[n] for every n in the scope, and Factor.value_indices of a full assignment is the (single) index cpt_indices returns.", "quantifier": "every network and node", "why_tests_cant": "all shapes", "anchors": ["pyBN/classes/bayesnet.py:BayesNet.stride,cpt_indices", "pyBN/classes/factor.py:Factor.value_indices,__init__"]}
{"id": "C25", "title": "moralized_edges is the moral graph", "statement": "An unordered pair is connected by moralized_edges() iff one is a parent of the other or they share a child; no pair of co-parents is listed as a self-loop.", "quantifier": "every network", "why_tests_cant": "all graphs", "anchors": ["pyBN/classes/bayesnet.py:BayesNet.moralized_edges"]}
{"id": "C26", "title": "markov_blanket is parents, children and spouses, and is symmetric", "statement": "y is in markov_blanket(bn)[x] iff y is a parent, a child, or another parent of a child of x; when the network's edges and parents agree, y in mb[x] iff x in mb[y]; x is not in mb[x] in an acyclic network.", "quantifier": "every network", "why_tests_cant": "all graphs", "anchors": ["pyBN/utils/markov_blanket.py:markov_blanket"]}
{"id": "C27", "title": "Edge edits keep children lists and parent lists in agreement", "statement": "After any sequence of add_edge/remove_edge between existing nodes of a network built by BayesNet(E, values), u is in parents(v) iff v is in children(u), an edge is present iff the last edit that named it was an add (or it was there from the start), node values and CPTs are untouched, and remove_edge undoes add_edge exactly; removing an absent edge raises ValueError and changes nothing. reverse_arc breaks the agreement on every edge; add_edge from a node that does not exist raises KeyError and leaves the node half-added; nodes added with default arguments share one parents list so an edge into one appears in all.", "quantifier": "every finite history of edits", "why_tests_cant": "unbounded histories; aliasing", "anchors": ["pyBN/classes/bayesnet.py:BayesNet.add_node,add_edge,remove_edge,reverse_arc,set_structure"]}
{"id": "C28", "title": "copy() is independent of the original", "statement": "The copy observes the same nodes, edges, parents, values and CPTs. However both were edited before, an edit of the copy changes no observation of the original and vice versa, as long as no node is added with omitted default arguments; with omitted arguments the claim is false (the shared default parents list links the two networks).", "quantifier": "every network, every interleaved history of edits after the copy", "why_tests_cant": "unbounded histories; aliasing of nested lists", "anchors": ["pyBN/classes/bayesnet.py:BayesNet.copy,add_node,add_edge"]}
{"id": "C29", "title": "Graph accessors agree with each other", "statement": "len(list(edges())) = num_edges(); the sum of degrees is 2*num_edges when parents and children agree; adj_list lists, per node position, the positions of its children.", "quantifier": "every network", "why_tests_cant": "all graphs", "anchors": ["pyBN/classes/bayesnet.py:BayesNet.edges,num_edges,degree,adj_list,num_params"]}
{"id": "C30", "title": "Equality of BayesNets is reflexive", "statement": "x == x should be True. In fact comparing two networks with the same non-empty node set always raises TypeError (set + set), so no non-empty network equals itself.", "quantifier": "every pair of networks", "why_tests_cant": "the failure is total but no test compares networks", "anchors": ["pyBN/utils/class_equivalence.py:are_class_equivalent", "pyBN/classes/bayesnet.py:BayesNet.__eq__"]}
{"id": "C31", "title": "missing_edges and extra_edges are dual and count the edge differences", "statement": "missing_edges(x,y)=extra_edges(y,x) always; over the same node set missing_edges(x,y) is the number of edges of x that are not edges of y; hamming is symmetric, zero on identical structures, zero only if the edge sets agree, and satisfies the triangle inequality.", "quantifier": "every pair/triple of networks", "why_tests_cant": "all pairs of graphs", "anchors": ["pyBN/utils/structure_distance.py"]}
{"id": "C32", "title": "incorrect_direction_edges counts reversed edges", "statement": "Should count edges of x that appear reversed in y. In fact it is 0 for every pair of networks over the same nodes without self-loops.", "quantifier": "every pair of networks", "why_tests_cant": "all pairs of graphs", "anchors": ["pyBN/utils/structure_distance.py:incorrect_direction_edges,hamming"]}
{"id": "C33", "title": "mst returns a tree spanning what vertex 0 can reach", "statement": "For every weighted digraph on 0..n-1 mst returns a set of edges of the graph in which vertex 0 has no parent, every other vertex has at most one, and the vertices connected to 0 are exactly those reachable from 0; so on a connected graph it has n-1 edges.", "quantifier": "every weighted edge dict, every dict iteration order", "why_tests_cant": "all graphs", "anchors": ["pyBN/utils/graph.py:mst"]}
{"id": "C34", "title": "mst has minimum total weight", "statement": "For symmetric weights on a connected graph no spanning tree has smaller total weight.", "quantifier": "every symmetric weighted graph, every spanning tree", "why_tests_cant": "all graphs and all competing trees", "anchors": ["pyBN/utils/graph.py:mst"]}
{"id": "C35", "title": "would_cause_cycle answers exactly whether the move creates a directed cycle", "statement": "On an acyclic graph would_cause_cycle(e,u,v) is True iff adding u->v creates a directed cycle; with reverse=True, iff replacing v->u by u->v does.", "quantifier": "every acyclic edge dict, every pair", "why_tests_cant": "all graphs", "anchors": ["pyBN/utils/graph.py:would_cause_cycle"]}
{"id": "C36", "title": "hc returns an acyclic, restriction-respecting network and stops", "statement": "For every dataset (every score function) hc terminates within max_iter+1 passes and returns a DAG over all columns whose every edge is allowed by the restriction list; parents and children agree.", "quantifier": "every score function, restriction list, max_iter, number of columns", "why_tests_cant": "all score landscapes", "anchors": ["pyBN/learning/structure/score/hill_climbing.py:hc"]}
{"id": "C37", "title": "hc: the debug flag only affects printing", "statement": "hc(debug=True) and hc(debug=False) should return the same network. False: arc reversals are only applied when debug is on; with debug off a chosen reversal is dropped.", "quantifier": "every score function", "why_tests_cant": "needs a score landscape where a reversal wins", "anchors": ["pyBN/learning/structure/score/hill_climbing.py:hc"]}
{"id": "C38", "title": "tabu search never undoes one of its last moves", "statement": "With k=5, in any run no move among the last 5 passes is undone (an added edge deleted, a deleted edge re-added). With k<5 a long enough run raises IndexError; with k>5 only 5 moves are remembered.", "quantifier": "every score function and every run", "why_tests_cant": "unbounded histories", "anchors": ["pyBN/learning/structure/score/tabu.py:tabu"]}
{"id": "C39", "title": "Random restarts keep the network acyclic, but may not terminate and ignore the restriction list", "statement": "For every sequence of random draws every graph hc_rr reaches is acyclic with parents and children in agreement. A random deletion on an edgeless network never terminates; random additions may add edges outside the restriction list.", "quantifier": "every score function, every random stream", "why_tests_cant": "all random streams, divergence", "anchors": ["pyBN/learning/structure/score/random_restarts.py:hc_rr"]}
{"id": "C40", "title": "mle_estimator counts are the data frequencies", "statement": "When the network's nodes are the columns 0..n-1 in order, mle_estimator(counts=True) returns for every node and every CPT cell the number of data rows whose values on the node and its parents are that cell's; per node they add up to the number of rows.", "quantifier": "every dataset and every such structure", "why_tests_cant": "all datasets", "anchors": ["pyBN/learning/parameter/mle.py:mle_estimator"]}
{"id": "C41", "title": "mle_estimator probabilities are relative frequencies", "statement": "Each learned probability is count/(group total + 1e-7) rounded to 5 decimals; an observed group therefore sums to total/(total+1e-7) before rounding and a parent configuration never seen in the data gets an all-zero column instead of a distribution.", "quantifier": "every dataset", "why_tests_cant": "all datasets", "anchors": ["pyBN/learning/parameter/mle.py:mle_estimator"]}
{"id": "C42", "title": "Learned parameters belong to the right column", "statement": "The values learned for node n should be the values occurring in data column n. False when nodes() is not 0..n-1 in order (values are taken from the column at n's topological position), e.g. naive_bayes with target != 0.", "quantifier": "every structure and dataset", "why_tests_cant": "needs a topological order different from column order", "anchors": ["pyBN/learning/parameter/mle.py:mle_estimator", "pyBN/learning/structure/naive/naive_bayes.py:naive_bayes"]}
{"id": "C43", "title": "bayes_estimator returns strictly positive normalised CPTs", "statement": "With a positive equivalent sample size every cell is (count + ess/size)/(group total) before rounding, so every parent configuration has a strictly positive distribution summing to 1, even if never observed.", "quantifier": "every dataset, structure on columns in order, equivalent sample size > 0", "why_tests_cant": "all datasets", "anchors": ["pyBN/learning/parameter/bayes.py:bayes_estimator"]}
{"id": "C44", "title": "forward_sample returns frequencies summing to 1, provided nodes() is a topological order", "statement": "For every random stream and n>0, each node's frequencies sum to exactly 1. If some node precedes one of its parents in nodes() (possible, see C21) forward_sample raises KeyError.", "quantifier": "every network, n and random stream", "why_tests_cant": "all random streams", "anchors": ["pyBN/inference/marginal_approx/forward_sample.py:forward_sample"]}
{"id": "C45", "title": "gibbs_sample frequencies sum to 1", "statement": "They should. In fact for every network, random stream and n>burn+1 each node's unrounded frequencies sum to (n-burn-1)/(n-burn): one sample is discarded but still counted in the denominator.", "quantifier": "every network, n, burn, random stream", "why_tests_cant": "all random streams", "anchors": ["pyBN/inference/marginal_approx/gibbs_sample.py:gibbs_sample"]}
{"id": "C46", "title": "lw_sample weights and normalisation", "statement": "For every random stream each sample's weight is the product over evidence nodes of P(evidence value | sampled parents); when some weight is positive each node's unrounded estimates sum to 1 and evidence nodes put all mass on the observed value.", "quantifier": "every network, evidence, n, random stream", "why_tests_cant": "all random streams", "anchors": ["pyBN/inference/marginal_approx/lw_sample.py:lw_sample"]}
{"id": "C47", "title": "random_sample produces rows of positive probability", "statement": "Every generated row assigns each node a valid value index, and if each draw has positive probability under the distribution passed to the generator, the row has positive joint probability.", "quantifier": "every network in topological order, every stream", "why_tests_cant": "all random streams", "anchors": ["pyBN/utils/random_sample.py:random_sample"]}
{"id": "C48", "title": "write/read round trip in the .bn format", "statement": "For a network with string names, reading back what write_bn wrote gives the same E and F and nodes() = topsort(E), whatever list of nodes was written: for an acyclic network the same nodes, parents, values, tables and joint distribution. The order of nodes() is not preserved; a network listed in topological order can be read back with a node before its parent.", "quantifier": "every network with string node names", "why_tests_cant": "all networks", "anchors": ["pyBN/io/write.py:write_json", "pyBN/io/read.py:read_json"]}
{"id": "C49", "title": "Learned networks survive the .bn round trip", "statement": "Networks learned from data have integer node names; JSON object keys become strings while list elements stay integers, so reading back any such network with at least one edge raises KeyError, and one without edges comes back with its nodes renamed to strings.", "quantifier": "every network with integer names and an edge", "why_tests_cant": "a property of all learned networks", "anchors": ["pyBN/io/write.py:write_json", "pyBN/io/read.py:read_json", "pyBN/utils/graph.py:topsort"]}
{"id": "C50", "title": "read_bif recovers the network", "statement": "For every .bif document in the standard layout in which every node with parents has as many values as the variable declared last, reading it gives a well-formed network with the declared parents, values and P(child | parents) as in the labelled rows. Otherwise the reader takes the wrong number of words from each row: the network is malformed or ValueError is raised. Node names that contain 'variable' or 'probability' are misread.", "quantifier": "every network rendered to .bif", "why_tests_cant": "all networks; the shipped test files are uniform", "anchors": ["pyBN/io/read.py:read_bif"]}
{"id": "C51", "title": "replace_strings is a faithful integer coding", "statement": "Each column is replaced by codes 0..k-1 and value_dict maps every code back to the original string; order-preserving; equal strings iff equal codes. Because codes are written back into the fixed-width string array first, this fails when a code has more digits than the array's item width.", "quantifier": "every string dataset and item width", "why_tests_cant": "needs more than 10 distinct one-character values", "anchors": ["pyBN/utils/data.py:replace_strings,unique_bins"]}
{"id": "C52", "title": "discretize is monotone and in range", "statement": "A discretized column with n bins gets codes 1..n: code k means the entry lies in [p_k, p_(k+1)) for n equally spaced points p_1..p_n from the minimum to the maximum. So larger entries never get smaller codes, the minimum gets 1, the maximum gets n, and only the maximum gets n (there are n-1 intervals). A constant column gets n. Other columns are truncated towards zero. The bins list is indexed by column number, not by position in cols: IndexError when it is shorter.", "quantifier": "every numeric column and number of bins >= 2", "why_tests_cant": "all real data", "anchors": ["pyBN/utils/discretize.py:discretize"]}
{"id": "C53", "title": "Histogram bins separate the levels", "statement": "The independence tests bin each column into as many equal-width bins as it has distinct values; for levels 0..k-1 (or any consecutive integers) each level gets its own bin and mi_test (2 or 3 columns) and mutual_information (1 or 2 columns) are functions of the true contingency table; for levels with gaps two different levels can share a bin and different data become indistinguishable.", "quantifier": "every integer column", "why_tests_cant": "depends on the gaps in the data", "anchors": ["pyBN/utils/independence_tests.py:mi_test,mutual_information", "pyBN/utils/data.py:unique_bins"]}
{"id": "C54", "title": "Merging conditioning columns keeps configurations apart", "statement": "Conditioning columns are merged by string concatenation. For single-digit codes this is injective; with two-digit codes different configurations are merged (1,11 and 11,1).", "quantifier": "every pair of rows", "why_tests_cant": "needs multi-digit levels", "anchors": ["pyBN/utils/independence_tests.py:mi_test,mutual_information,entropy"]}
{"id": "C55", "title": "pc keeps the skeleton symmetric and stops", "statement": "For every outcome of the independence tests the skeleton phase of pc stops with a symmetric adjacency without self-loops or repetitions; a missing edge x-y was removed because some test separated x and y, the recorded separating set is one, and the network returned has only directions of skeleton edges and, if these are acyclic, all columns as nodes. The converse (every pair the tests can separate is removed) and the presence of all nodes are false; it does hold of a pair x-y whose y is the only column the tests ever separate from x, whatever the size of the separating set.", "quantifier": "every independence oracle and number of variables", "why_tests_cant": "all oracles", "anchors": ["pyBN/learning/structure/constraint/path_condition.py:pc"]}
{"id": "C56", "title": "resolve_markov_blanket returns a symmetric graph inside the blankets", "statement": "The returned adjacency is symmetric, without repetitions, and x-y is an edge iff y in Mb[x] (or x in Mb[y]) and no tested subset of the smaller blanket separates them. The full smaller blanket itself is never tested, so a pair separated only by it stays.", "quantifier": "every oracle and blanket dict", "why_tests_cant": "all oracles", "anchors": ["pyBN/utils/markov_blanket.py:resolve_markov_blanket"]}
{"id": "C57", "title": "gs stops and returns Markov blankets", "statement": "For every oracle the grow phase terminates with every dependent column inside. The shrink phase should terminate: in fact it returns its argument if its first pass removes nothing and otherwise loops forever (on the chain 0 -> 1 -> 2 with a perfect test gs never returns). If gs returns, the sets it used are blankets as far as the test can tell and its edges are linked pairs.", "quantifier": "every independence oracle", "why_tests_cant": "divergence", "anchors": ["pyBN/learning/structure/constraint/grow_shrink.py:gs"]}
{"id": "C58", "title": "iamb adds the best candidate", "statement": "The growing phase terminates, and stops only when no candidate is left or the best one is not dependent. Each growing step should add the variable with maximal association. In fact it adds the last candidate examined.", "quantifier": "every association oracle", "why_tests_cant": "needs a landscape where the best is not last", "anchors": ["pyBN/learning/structure/constraint/iamb.py:iamb"]}
{"id": "C59", "title": "orient_edges_CS only orients existing adjacencies", "statement": "Every directed edge of the output joins two neighbours of the input skeleton, no edge is repeated; but it may orient an edge both ways and drops every edge that is in no uncoupled meeting.", "quantifier": "every symmetric skeleton and block dict", "why_tests_cant": "all graphs", "anchors": ["pyBN/utils/orient_edges.py:orient_edges_CS"]}
{"id": "C60", "title": "make_chordal returns a chordal supergraph of the moral graph", "statement": "When the moral graph is not chordal, the returned graph contains all moral edges and every cycle of length at least four has a chord.", "quantifier": "every network and elimination order", "why_tests_cant": "all graphs, all cycles", "anchors": ["pyBN/utils/graph.py:make_chordal"]}
{"id": "C61", "title": "ilp_map's integer program encodes the assignments", "statement": "The 0/1 solutions of the constraints built by ilp_map are exactly the full assignments of the network (one CPT row per node, mutually consistent), with objective the sum of the rows' weights; the evidence argument has no effect.", "quantifier": "every well-formed network and weight table", "why_tests_cant": "all networks", "anchors": ["pyBN/inference/map_exact/ilp_map.py:ilp_map", "pyBN/classes/bayesnet.py:BayesNet.cpt_indices"]}
{"id": "C62", "title": "Clique potentials are the product of their assigned factors", "statement": "After CliqueTree(bn), a clique's psi (and belief) should be the product of the tables of its nodes. It is for cliques with one node; with two or more nodes the tables up to and including the largest one are multiplied in a second time. Every network with an edge has such a clique.", "quantifier": "every well-formed network, clique and hash order", "why_tests_cant": "all networks", "anchors": ["pyBN/classes/cliquetree.py:Clique.initialize_psi"]}
{"id": "C63", "title": "Sending a message leaves the sender's belief intact", "statement": "send_message works on a shallow copy; summing a variable out of the message should not change the sender's belief, but deletes the variable from the belief's (shared) scope, card and stride.", "quantifier": "every clique with a variable outside the sepset", "why_tests_cant": "aliasing", "anchors": ["pyBN/classes/cliquetree.py:Clique.send_message", "pyBN/classes/factor.py:Factor.sumout_var"]}
{"id": "C64", "title": "flat_cpt lists every table entry in node order", "statement": "flat_cpt() is the concatenation of the CPTs in node order and flat_cpt(by_var=True) their sums. flat_cpt(by_parents=True) should be the sum of each row (one per parent configuration); it is so when no node has parents, but in general the windows overlap (they start at i instead of i*card) and the sums are wrong.", "quantifier": "every well-formed network", "why_tests_cant": "all networks", "anchors": ["pyBN/classes/bayesnet.py:BayesNet.flat_cpt"]}
{"id": "C65", "title": "A factor keeps naming a variable of its own scope", "statement": "After sumout_var/reduce_factor of a variable other than factor.var, factor.var is unchanged; after removing factor.var itself it becomes some variable of the remaining scope with stride 1 (unchanged if the scope is empty). maxout_var never updates it, so maxing out factor.var leaves a factor named after a variable it no longer has.", "quantifier": "every well-formed factor, every removed variable, every dict iteration order", "why_tests_cant": "all factors and iteration orders", "anchors": ["pyBN/classes/factor.py:Factor.sumout_var", "pyBN/classes/factor.py:Factor.maxout_var", "pyBN/classes/factor.py:Factor.reduce_factor"]}
{"id": "C66", "title": "BayesNet(E) adopts the caller's edge dict", "statement": "The edge dict passed to BayesNet(E, values) is not copied: after any history of edge edits the caller's dict lists exactly the network's current edges. Hence two networks built from the same dict interfere: an edge edited through one makes the other's children lists disagree with its parents lists.", "quantifier": "every edge dict and every history of edge edits", "why_tests_cant": "aliasing; unbounded histories", "anchors": ["pyBN/classes/bayesnet.py:BayesNet.__init__,set_structure,add_edge,remove_edge"]}
{"id": "C67", "title": "The setters replace one field of one node", "statement": "On a network whose lists are not shared, set_cpt(rv,x) / set_parents(rv,x) / set_values(rv,x) make the corresponding field of rv equal to x and leave every other node, field and edge unchanged.", "quantifier": "every unshared network, node and new value", "why_tests_cant": "all networks; aliasing", "anchors": ["pyBN/classes/bayesnet.py:BayesNet.set_cpt,set_parents,set_values"]}
{"id": "C68", "title": "Learned CPTs stay aligned with the learned parent lists", "statement": "After mle_estimator the entry for (node value, parent values) should be the frequency of that combination. False when some node's parent list is not in nodes() order (possible after add_edge or in a loaded network): counts are laid out in the old parent order, then the parents are re-listed in nodes() order.", "quantifier": "every structure and dataset", "why_tests_cant": "all structures", "anchors": ["pyBN/learning/parameter/mle.py:mle_estimator"]}
{"id": "C69", "title": "Asking mle_estimator for counts leaves the network unchanged", "statement": "mle_estimator(counts=True) should only report counts. In fact it replaces every node's CPT by zeros.", "quantifier": "every structure and dataset", "why_tests_cant": "all datasets", "anchors": ["pyBN/learning/parameter/mle.py:mle_estimator"]}
{"id": "C70", "title": "Learning the parameters of some nodes keeps the others", "statement": "mle_estimator(nodes=...) should leave the other nodes' parameters alone. In fact afterwards parents(), values() and cpt() of every node not in the list raise KeyError, while nodes() still lists it.", "quantifier": "every structure, dataset and node subset", "why_tests_cant": "all subsets", "anchors": ["pyBN/learning/parameter/mle.py:mle_estimator"]}
{"id": "C71", "title": "naive_bayes learns the naive Bayes model", "statement": "For every dataset with at least one row and every valid target, naive_bayes returns a well-formed network over all columns whose edges go exactly from the target to every other column, with both estimators; for target 0 the parameters are the (mle or smoothed) relative frequencies. For other targets the values and hence the parameters are read from the wrong columns (C42).", "quantifier": "every dataset, target column and estimator", "why_tests_cant": "all datasets", "anchors": ["pyBN/learning/structure/naive/naive_bayes.py:naive_bayes"]}
{"id": "C72", "title": "Networks learned by mle_estimator can be sampled", "statement": "One expects forward_sample, gibbs_sample, lw_sample and random_sample to accept the networks mle_estimator returns. They do not: the learned entries are rounded to 5 decimals, and numpy's choice rejects distributions that miss 1 by more than 1e-8. For every table in which a parentless first node takes three values equally often, whatever the number of rows, all four samplers raise ValueError for every random stream and n>0.", "quantifier": "every table, learned network, random stream, n, evidence", "why_tests_cant": "Needs all row counts: the rounding never helps", "anchors": ["pyBN/learning/parameter/mle.py:mle_estimator", "pyBN/inference/marginal_approx/forward_sample.py:forward_sample", "pyBN/utils/random_sample.py:random_sample"]}
{"id": "C73", "title": "The score metric chosen by the user is ignored by structure search", "statement": "hc, tabu and hc_rr take a metric argument (AIC, BIC, LL). A user expects it to select the score being optimised. In fact no metric influences the result: any two metrics give the same network.", "quantifier": "every data table, score values, metric strings, limits and draws", "why_tests_cant": "Equality of two whole runs for every dataset; tests fix one dataset.", "anchors": ["pyBN/learning/structure/score/hill_climbing.py:hc", "pyBN/learning/structure/score/tabu.py:tabu", "pyBN/learning/structure/score/random_restarts.py:hc_rr", "pyBN/learning/structure/score/info_scores.py:info_score"]}
{"id": "C74", "title": "pc tests marginal independence", "statement": "A constraint-based learner should test each pair unconditionally first. pc never does: its result depends only on tests with at least one conditioning column; a table with two columns always gives the edgeless network, and with a perfect test the v-structure 0 -> 2 <- 1 gives the edgeless network.", "quantifier": "every test, level and table", "why_tests_cant": "statement about all tests", "anchors": ["pyBN/learning/structure/constraint/path_condition.py:pc"]}
{"id": "C75", "title": "Orientation from Markov blankets only directs existing adjacencies", "statement": "orient_edges_MB (used by gs) only removes directions from the adjacency graph, leaves a graph without uncoupled meetings undirected, and may raise only what the test raises or ValueError (which it does, but only if two columns of a meeting have blankets reaching beyond the meeting); an adjacency can lose both directions. orient_edges_gs2 (used by iamb) returns only directions of adjacencies in an uncoupled meeting and raises only what the test raises.", "quantifier": "every test, adjacency graph, blanket dict and set iteration order", "why_tests_cant": "all graphs, all tests, all hash orders", "anchors": ["pyBN/utils/orient_edges.py:orient_edges_MB,orient_edges_gs2", "pyBN/learning/structure/constraint/grow_shrink.py:gs"]}
{"id": "C76", "title": "iamb's shrinking phase removes false positives", "statement": "Shrinking should remove the columns that are independent of the target given the rest. In fact every column it removes is one the test calls dependent, and a column that is never dependent stays; for 0 -> 1 and an unrelated column 2 and a perfect test iamb returns 2 -> 0, 2 -> 1. With two columns the result has no edge. iamb itself always terminates and its edges lie in uncoupled meetings of the linked pairs.", "quantifier": "every association, test, level, table and set iteration order", "why_tests_cant": "all tests", "anchors": ["pyBN/learning/structure/constraint/iamb.py:iamb"]}
{"id": "C77", "title": "feature_selection returns the blanket of the selected column", "statement": "gs and iamb with feature_selection should return the Markov blanket of that column. In fact no call with feature_selection returns; iamb raises TypeError after computing the blanket.", "quantifier": "every table, test and selection", "why_tests_cant": "all inputs", "anchors": ["pyBN/learning/structure/constraint/iamb.py:iamb", "pyBN/learning/structure/constraint/grow_shrink.py:gs"]}
{"id": "C78", "title": "Reading a truncated .bif file terminates", "statement": "read_bn on a file that ends inside the table of a node with parents should fail or return; instead the reader keeps reading empty lines and never returns, for every such file.", "quantifier": "every printable .bif document cut before its last closing brace", "why_tests_cant": "non-termination cannot be observed by a test", "anchors": ["pyBN/io/read.py:read_bif"]}
{"id": "C79", "title": "Row labels of a .bif table are honoured", "statement": "The parent values a table row is labelled with should decide where its numbers go. They are ignored: only the order of the rows counts, so the same rows in another order give another network.", "quantifier": "all pairs of .bif documents that differ only in row labels", "why_tests_cant": "all documents", "anchors": ["pyBN/io/read.py:read_bif"]}
{"id": "C80", "title": "A .bn file that is not JSON is reported", "statement": "read_bn on a .bn file whose text is not JSON prints a message and returns an empty network, without an exception.", "quantifier": "every text that json.loads rejects, every order of dict iteration", "why_tests_cant": "all malformed texts", "anchors": ["pyBN/io/read.py:read_json"]}
{"id": "C81", "title": "write_bn and read_bn agree on the format of a path", "statement": "A path that write_bn accepts is read back in the same format exactly when it does not contain '.bif' anywhere (for instance in a directory name); paths without '.bif', '.bn' or '.mat' are neither read nor written.", "quantifier": "every path string", "why_tests_cant": "all strings", "anchors": ["pyBN/io/read.py:read_bn", "pyBN/io/write.py:write_bn"]}
{"id": "C82", "title": "read_mat reads the structure in the file", "statement": "read_bn on a .mat file should read the structure in the adjacency matrix. It reads the first field of every line as a node and no edges, for every file.", "quantifier": "every file content and delimiter character", "why_tests_cant": "all files", "anchors": ["pyBN/io/read.py:read_mat"]}
{"id": "C83", "title": "Mutual information of a node with several binary parents", "statement": "mutual_information(data[:,(v,p1,..,pk)]) is used as the score of node v with parents p1..pk. When the parents are 0/1 columns, the value is that of (v,p1): every parent after the first is ignored, because the merged column is binned with p1's number of bins.", "quantifier": "all data, all numbers of parents, any formula applied to the histogram", "why_tests_cant": "universally quantified over datasets and over the score computed from the histogram", "anchors": ["pyBN/utils/independence_tests.py:mutual_information"]}
{"id": "C84", "title": "Structure search on binary data", "statement": "On 0/1 data hc and tabu (debug=False) never return a network in which a node has two parents: no interaction of two causes can be learned.", "quantifier": "all 0/1 datasets, iteration limits, restrictions, metrics", "why_tests_cant": "a property of every run of the search", "anchors": ["pyBN/learning/structure/score/hill_climbing.py:hc", "pyBN/learning/structure/score/tabu.py:tabu", "pyBN/utils/independence_tests.py:mutual_information"]}
{"id": "C85", "title": "Conditioning on two binary columns", "statement": "mi_test of x and y given 0/1 columns z and w in which all four combinations occur does not depend on w: replacing w by any other such column gives the same p-value.", "quantifier": "all data, any formula applied to the histogram", "why_tests_cant": "two arbitrary datasets are compared", "anchors": ["pyBN/utils/independence_tests.py:mi_test"]}
{"id": "C86", "title": "The parent that hill climbing prefers", "statement": "When hc gives a parentless node its first parent, no other legal parent has smaller mutual information with the node: the least informative parent is chosen.", "quantifier": "all data, scores and runs", "why_tests_cant": "holds at every step of every run", "anchors": ["pyBN/learning/structure/score/hill_climbing.py:hc"]}
{"id": "C87", "title": "Conditional mutual information and entropy of three columns", "statement": "mutual_information(conditional=True) and entropy of three 0/1 columns do not depend on the data beyond the number of rows (all rows fall in one cell), and raise ValueError if a column has no 1; mi_from_en raises AttributeError for two columns and ignores the second column of three 0/1 columns. On three columns coded 1..a, 1..b, 1..c both use the right contingency table.", "quantifier": "all 0/1 data, any formula applied to the histogram", "why_tests_cant": "quantifies over all datasets", "anchors": ["pyBN/utils/independence_tests.py:mutual_information,entropy,mi_from_en"]}
{"id": "C88", "title": "chi2_test returns", "statement": "chi2_test raises on every input (NameError whenever the histogram can be computed): it never returns a statistic.", "quantifier": "all data", "why_tests_cant": "all inputs", "anchors": ["pyBN/utils/independence_tests.py:chi2_test"]}
{"id": "C89", "title": "are_independent answers the question its name asks", "statement": "are_independent returns True exactly when the p-value is below alpha, which the documentation of the test calls dependence; nan counts as not below.", "quantifier": "all tests, levels alpha and columns", "why_tests_cant": "all inputs", "anchors": ["pyBN/utils/independence_tests.py:are_independent"]}
{"id": "C90", "title": "cpt_str_idx describes the CPT row", "statement": "The text returned by cpt_str_idx(rv, i) for the i-th CPT entry is \"rv=value|p1=value,p2=value,...\" with the values of rv and of every parent at that entry, parents in declaration order and separated by single commas.", "quantifier": "every well-formed network, node and CPT position", "why_tests_cant": "all networks", "anchors": ["pyBN/classes/bayesnet.py:BayesNet.cpt_str_idx", "pyBN/inference/map_exact/ilp_map.py:ilp_map"]}
{"id": "C91", "title": "CliqueTree.parents returns the tree parents", "statement": "parents(v) should return the vertices with an edge to v. Every vertex but the first has exactly one parent, a different vertex, but parents(v) returns [v] (and [] for the first vertex).", "quantifier": "every clique tree and vertex", "why_tests_cant": "all networks", "anchors": ["pyBN/classes/cliquetree.py:CliqueTree.parents"]}
{"id": "C92", "title": "Each conditional probability table enters exactly one clique potential", "statement": "Every node that has a parent or a child is assigned to exactly one clique of CliqueTree(bn): the first clique (in networkx's order) that contains the node and its parents; isolated nodes to none.", "quantifier": "every well-formed network, every order of the cliques and of the dict", "why_tests_cant": "all networks, schedules of hash order", "anchors": ["pyBN/classes/cliquetree.py:CliqueTree.initialize_tree"]}
{"id": "C93", "title": "CliqueTree(bn) succeeds", "statement": "The constructor should succeed for every valid network. It raises AssertionError exactly when some maximal clique contains no family of its own (all families it contains are inside earlier cliques), e.g. three causes with one common effect per pair.", "quantifier": "every well-formed network", "why_tests_cant": "all networks", "anchors": ["pyBN/classes/cliquetree.py:CliqueTree.initialize_tree", "pyBN/classes/cliquetree.py:Clique.initialize_psi"]}
{"id": "C94", "title": "exact_bp returns the marginal of the target", "statement": "exact_bp raises NameError (CliqueTree is not imported). With the import added it still sends messages from each clique to itself, so the result is computed from the potential of one clique only (the first that contains the target, squared if it is not the first clique): wrong already on a chain.", "quantifier": "every well-formed network, target and hash order", "why_tests_cant": "all networks", "anchors": ["pyBN/inference/marginal_exact/exact_bp.py:exact_bp", "pyBN/classes/cliquetree.py:CliqueTree.parents"]}
{"id": "C95", "title": "An upward pass along the tree edges is correct", "statement": "If the user sends one message (>>) from every clique but a root, along edges of the tree, in any order in which a clique receives before it sends, then no message fails and collect_beliefs at the root gives the product of all clique potentials summed onto the root's scope; marginalize_over then returns the exact marginal if all doubly counted tables are 0/1 and no node is isolated. An order exists for every root.", "quantifier": "every well-formed network, root, schedule along the tree, hash order", "why_tests_cant": "all networks and message schedules", "anchors": ["pyBN/classes/cliquetree.py:Clique.send_message", "pyBN/classes/cliquetree.py:Clique.collect_beliefs", "pyBN/classes/cliquetree.py:Clique.marginalize_over"]}
{"id": "C96", "title": "The clique tree covers every node", "statement": "A node is in some clique of CliqueTree(bn) exactly if it has a parent or a child; isolated nodes are in none (so no marginal can be computed for them).", "quantifier": "every well-formed network", "why_tests_cant": "all networks", "anchors": ["pyBN/classes/cliquetree.py:CliqueTree.initialize_tree"]}
{"id": "C97", "title": "The clique tree has the running intersection property", "statement": "Any two cliques that contain a variable are connected in the tree by a path of cliques that all contain it.", "quantifier": "every well-formed network, pair of cliques and shared variable", "why_tests_cant": "all networks", "anchors": ["pyBN/classes/cliquetree.py:CliqueTree.initialize_tree", "pyBN/utils/graph.py:mst"]}
{"id": "C98", "title": "The mutual information reported is the mutual information of the data", "statement": "For two columns with levels a..a+k-1, mi_test(data, test=False) and mutual_information(data) return, rounded to four decimals, a number that is never negative, is 0 exactly when the columns are exactly independent, and differs from the mutual information of the empirical distribution by at most 1e-7 * a * b * (N + 17). With a third column, exactly conditionally independent columns get a number between 0 and about 1e-7 times the number of levels of the third. Value and p-value do not depend on the order of the two tested columns.", "quantifier": "every data table with consecutive levels, of any number of rows and levels", "why_tests_cant": "all data sets, over the reals", "anchors": ["pyBN/utils/independence_tests.py:mi_test", "pyBN/utils/independence_tests.py:mutual_information"]}
{"id": "C99", "title": "The p-value of the mutual information test is large for independent data", "statement": "The p-value of mi_test is meant to be near 1 for independent data. Because twice the chi-square density is returned (not the tail probability), exactly independent columns get nan, inf, 1 or 0 for 0, 1, 2 or at least 3 degrees of freedom; with two degrees of freedom the p-value is exp(-x/2), which is right; with one it exceeds 1 for small statistics; with three or more, columns that are exactly independent (given a third) are declared dependent at 0.05, and a dependent table can get a larger p-value than an independent one of the same shape.", "quantifier": "every data table with consecutive levels", "why_tests_cant": "all data sets, over the reals", "anchors": ["pyBN/utils/independence_tests.py:mi_test"]}
{"id": "C100", "title": "With many degrees of freedom the test can still accept independence", "statement": "With 140 or more degrees of freedom ((a-1)(b-1) or (a-1)(b-1)c), mi_test returns a p-value below 0.05 for every data set, whatever it contains.", "quantifier": "every data table with consecutive levels and at least 140 degrees of freedom", "why_tests_cant": "all data sets, over the reals", "anchors": ["pyBN/utils/independence_tests.py:mi_test"]}
{"id": "C101", "title": "The p-value decreases with the dependence", "statement": "For dependent columns the reported number is twice the chi-square density at 2 N MI. For k > 2 degrees of freedom it increases with the statistic up to k-2 and decreases beyond.", "quantifier": "every pair of data tables with the same degrees of freedom", "why_tests_cant": "all data sets, over the reals", "anchors": ["pyBN/utils/independence_tests.py:mi_test"]}
{"id": "C102", "title": "The information scores prefer networks that fit the data", "statement": "log_likelihood, BIC, MDL, AIC and info_score are documented as data scores. They read only the network and the number of rows: the value is the sum of log(nrow*(theta+1e-7)) over all table entries, minus half the number of entries times log(max(edges,1)) for BIC/MDL and minus the number of entries for AIC. So among networks of one shape the score is maximal exactly when every table is uniform, whatever the data; a network with at most one edge has BIC = log likelihood; and of two networks, whatever they say, the one with more table entries wins from some number of rows on under every metric. Metric names are case-insensitive and an unknown one means BIC.", "quantifier": "every well-formed network with non-negative entries, every number of rows, every metric string", "why_tests_cant": "all networks and row counts, over the reals", "anchors": ["pyBN/learning/structure/score/info_scores.py:info_score", "pyBN/learning/structure/score/info_scores.py:log_likelihood", "pyBN/learning/structure/score/info_scores.py:BIC", "pyBN/learning/structure/score/info_scores.py:AIC", "pyBN/learning/structure/score/info_scores.py:MDL"]}
{"id": "C103", "title": "The parameter distances are distances between the networks' tables", "statement": "euclidean, manhattan, minkowski, kl_divergence, js_divergence, hellinger and hybrid distance never return: BayesNet is not imported (NameError), and with the import they raise TypeError or AssertionError for every network with a node. Run without assertions: manhattan is the sum of absolute differences of the table entries in node order, euclidean returns the same number (right only if at most one entry differs), minkowski is (sum of squares)^(1/p), tables of different total length (>= 2) raise ValueError, js_divergence always raises; kl_divergence of positive normalised tables of one shape is non-negative and zero exactly for equal tables, nan when the first network has a zero; hellinger is its formula, symmetric, zero exactly for equal tables. The numbers depend on node order: two orders of one network have a positive distance.", "quantifier": "every pair of networks, every exponent", "why_tests_cant": "all pairs of networks, over the reals", "anchors": ["pyBN/utils/parameter_distance.py:euclidean", "pyBN/utils/parameter_distance.py:manhattan", "pyBN/utils/parameter_distance.py:minkowski", "pyBN/utils/parameter_distance.py:kl_divergence", "pyBN/utils/parameter_distance.py:js_divergence", "pyBN/utils/parameter_distance.py:hellinger", "pyBN/utils/hybrid_distance.py:hybrid_distance"]}
{"id": "C104", "title": "The entropy of a column is the entropy of its empirical distribution", "statement": "entropy(data) and mutual_information(data) of one integer column return, rounded to four decimals, the entropy of the empirical distribution (between 0 and log of the number of levels), or nan. They never return nan for consecutive levels or at most two levels; they return nan for every column in which the levels have a gap wide enough to leave a histogram bin empty next to an occupied end.", "quantifier": "every integer-coded column", "why_tests_cant": "all data sets, over the reals", "anchors": ["pyBN/utils/independence_tests.py:entropy", "pyBN/utils/independence_tests.py:mutual_information", "pyBN/utils/independence_tests.py:unique_bins"]}
{"id": "C105", "title": "entropy of several columns is the conditional entropy", "statement": "entropy of two columns with consecutive levels is, up to rounding and 1e-7 smoothing, H(X|Y) of the empirical distribution, never negative. For three 0/1 columns the number of bins is the largest code, so entropy and the conditional mutual information are 0 for every data set. For three columns coded 1..a, 1..b, 1..c entropy is H(X|Y,Z) and the conditional mutual information is the number the conditional test uses.", "quantifier": "every data table", "why_tests_cant": "all data sets, over the reals", "anchors": ["pyBN/utils/independence_tests.py:entropy", "pyBN/utils/independence_tests.py:mutual_information"]}
{"id": "C106", "title": "Chow-Liu returns the maximum-weight spanning tree", "statement": "chow_liu as shipped never returns (mi_test has no chi2_test keyword: TypeError; IndexError for fewer than two columns). With the keyword repaired and any symmetric pair weights it returns a network on the columns that is a tree directed away from one end r of a heaviest pair (r,s): r has no parent, every other column exactly one, and r -> s is an edge; every other column's edge is at least as heavy as its pairs with r and s. For two or three columns no spanning tree weighs more. For four or more columns, whenever the two heaviest pairs are disjoint, the second heaviest pair is not in the tree and a strictly heavier spanning tree exists (the list is scanned once, so an edge with neither end in the tree is lost).", "quantifier": "every data table with at least two columns, every symmetric weight function", "why_tests_cant": "all data sets, all weights, every number of columns", "anchors": ["pyBN/learning/structure/tree/chow_liu.py:chow_liu"]}
{"id": "C107", "title": "EmpiricalDistribution is the empirical distribution, under every history of calls", "statement": "EmpiricalDistribution(data, names) always raises AttributeError; without names, for columns of consecutive codes, counts is the contingency table, but joint is counts/N plus 1/1000 in every cell, so it sums to 1 + cells/1000. On an object whose names were not assigned no sequence of calls ever returns a distribution (mpd wants a string, jpd, cpd, idx_map and mi raise). After assigning distinct string names, mpd of a name is, after every history of other calls, the frequency of each level plus 1/1000 per combination of levels of the other columns. An answer once given is repeated for ever, also after the names were changed (stale cache).", "quantifier": "every data table, every history of method calls and name assignments", "why_tests_cant": "histories of calls of any length on any data", "anchors": ["pyBN/classes/empiricaldistribution.py:EmpiricalDistribution.__init__", "pyBN/classes/empiricaldistribution.py:EmpiricalDistribution.mpd", "pyBN/classes/empiricaldistribution.py:EmpiricalDistribution.jpd", "pyBN/classes/empiricaldistribution.py:EmpiricalDistribution.cpd", "pyBN/classes/empiricaldistribution.py:EmpiricalDistribution.idx"]}
{"id": "C108", "title": "fast_iamb and lambda_iamb return a network or a Markov blanket", "statement": "No call of fast_iamb or lambda_iamb ever returns. fast_iamb: if the test does not reject independence of the first target and some column, RuntimeError (the set is changed while it is iterated); if the test always rejects and the data has at least k rows per value of every column, the loop never ends; otherwise NameError or TypeError at the end. lambda_iamb raises TypeError (set minus dict) at the first target.", "quantifier": "every data table, test, target, k and order of set iteration", "why_tests_cant": "non-termination and exceptions over all data and tests", "anchors": ["pyBN/learning/structure/constraint/fast_iamb.py:fast_iamb", "pyBN/learning/structure/constraint/lambda_iamb.py:lambda_iamb", "pyBN/utils/independence_tests.py:are_independent"]}
{"id": "C109", "title": "Classifiers, hybrid learners and Bayesian scores give a result", "statement": "mmpc returns only for a table without columns; mmhc (its import repaired), TAN, feature_selection, fs_gambit, bridge and mdbn never return; predict returns only for a table without rows (two empty arrays and nan). BDe, BDeu and K2 are 1 for the empty network and raise for every other one, and would raise with any counts. mle_fast learns nothing: AttributeError as soon as there is a node to learn. exact_bp, loopy_bp and ClusterGraph always raise NameError.", "quantifier": "every data table, network and argument", "why_tests_cant": "all inputs", "anchors": ["pyBN/learning/structure/hybrid/mmpc.py:mmpc", "pyBN/learning/structure/hybrid/mmhc.py:mmhc", "pyBN/learning/structure/naive/TAN.py:TAN", "pyBN/classification/classification.py:predict", "pyBN/classification/feature_selection.py:feature_selection", "pyBN/learning/structure/mdbn.py:mdbn", "pyBN/learning/structure/score/bayes_scores.py:BDe", "pyBN/learning/structure/score/bayes_scores.py:K2"]}
{"id": "C110", "title": "forward_sample is an unbiased, consistent estimator", "statement": "For a normalised network whose nodes() is topological, the expected frequency forward_sample reports for a value is exactly its marginal probability p; the mean squared error over all uniform draws is exactly p(1-p)/n; so the fraction of runs off by e or more is at most p(1-p)/(n e^2).", "quantifier": "every network with rational tables, every node, value, sample size and accuracy, exact law of uniform draws", "why_tests_cant": "a statement about the distribution over all random seeds and sample sizes", "anchors": ["pyBN/inference/marginal_approx/forward_sample.py:forward_sample"]}
{"id": "C111", "title": "random_sample draws independent rows from the joint distribution", "statement": "The probability that random_sample(bn, n) returns a given table of n rows is the product over the rows of their joint probabilities in the network (nodes() topological, normalised tables).", "quantifier": "every network with rational tables, every n and every table of valid rows", "why_tests_cant": "law of an n-fold sample", "anchors": ["pyBN/utils/random_sample.py:random_sample"]}
{"id": "C112", "title": "lw_sample converges to the posterior", "statement": "For evidence of probability P(e) > 0 and posterior q of a value, the fraction of runs of lw_sample that report nothing, nan, or a number off from q by t + 1/20000 or more is at most 4 (1 + q(1-q)/t^2) / (n P(e)).", "quantifier": "every network with rational tables, evidence, node, value, accuracy t and sample size n", "why_tests_cant": "law over all random draws, every n", "anchors": ["pyBN/inference/marginal_approx/lw_sample.py:lw_sample"]}
{"id": "C113", "title": "gibbs_sample is unbiased", "statement": "It is not: with nodes() topological the expected report for a value of marginal probability p is p (n-burn-1)/(n-burn), up to the rounding to 4 decimals; it underestimates every p larger than (n-burn)/20000.", "quantifier": "every network with rational tables, every n > burn, initial state", "why_tests_cant": "law over all random draws", "anchors": ["pyBN/inference/marginal_approx/gibbs_sample.py:gibbs_sample"]}
{"id": "C114", "title": "Learning from a network's own samples gives the network back", "statement": "mle_estimator applied to random_sample(bn, n) as data: the learned probability of a value given parent values of probability A is off from the sampled network's conditional probability p by t + 51e-7 or more in at most a fraction 4 (1 + p(1-p)/t^2)/(n A) of the runs, for any structure; with the network's own parents p is its own table entry, and for every accuracy and confidence there is a sample size from which on all reachable entries are recovered.", "quantifier": "every network with nodes 0..m-1 and rational tables, every structure over the same columns, entry, accuracy and confidence", "why_tests_cant": "law over all random draws and all sample sizes, across two modules", "anchors": ["pyBN/utils/random_sample.py:random_sample", "pyBN/learning/parameter/mle.py:mle_estimator"]}
{"id": "C115", "title": "Exact marginals survive floating-point rounding", "statement": "With every product and sum rounded (relative error u per operation), the table marginal_ve_e computes has relative error at most 2Ku per entry, K = number of nodes plus total number of values, as long as no product of n table entries underflows; hence with IEEE doubles, K <= 10^6 and entries at least d with d^n >= 2^-1000, the printed 4-decimal answer is within 5.000001e-5 + 1e-9 p of the exact posterior weight p, and no overflow occurs. It raises NameError exactly when exact arithmetic would.", "quantifier": "every network, target, evidence, elimination and set order, every rounding function of relative error u, and IEEE round-to-nearest-even", "why_tests_cant": "rounding errors accumulate differently for each network and each elimination schedule", "anchors": ["pyBN/inference/marginal_exact/ve_marginal.py:marginal_ve_e", "pyBN/classes/factor.py:Factor.multiply_factor", "pyBN/classes/factor.py:Factor.sumout_var"]}
{"id": "C116", "title": "ve_map is near-optimal in floating point", "statement": "With rounded products, ve_map returns a full assignment that agrees with the evidence and whose exact probability is at least (1-2nu) times that of every other assignment with the evidence (n nodes; factor 1-1e-9 with doubles for n <= 10^6 and no underflow), so a clear winner is found exactly; the factor cannot be dropped: with doubles there is a two-node network for which the answer is strictly less probable than another assignment. With prob=True the reported number is, with doubles, within 5.01e-6 of the exact probability of the returned assignment together with the evidence, and NameError is raised exactly when exact arithmetic would raise it.", "quantifier": "every network, evidence, set order, rounding function of relative error u, and IEEE doubles", "why_tests_cant": "near-ties depend on rounding; must hold for every network", "anchors": ["pyBN/inference/map_exact/ve_map.py:ve_map", "pyBN/classes/factorization.py:Factorization.max_product_eliminate_var"]}
{"id": "C117", "title": "Answers are stable under small errors in the tables", "statement": "For two networks with the same nodes, parents and values whose rows (one node, fixed parent values) differ by at most e(v) in total: the probability of every event differs by at most prod(1+e(v)) - 1 when one of them is normalised and by at most half of sum e(v) when both are, and both bounds are attained; marginal_ve_e either fails on both networks with NameError or returns vectors that differ entrywise by at most that bound plus 1e-4 (rounding); conditional probabilities move by at most twice the bound divided by the evidence probability; the assignment ve_map returns for one is within twice the bound of optimal for the other; relative entry errors of e give factors between (1-e)^n and (1+e)^n.", "quantifier": "every pair of networks, events, targets, evidence and set orders", "why_tests_cant": "must hold for every perturbation of every table; one example shows one direction only", "anchors": ["pyBN/inference/marginal_exact/ve_marginal.py:marginal_ve_e", "pyBN/inference/map_exact/ve_map.py:ve_map", "pyBN/classes/factorization.py:Factorization"]}
{"id": "C118", "title": "Sample, learn, query: the answers converge to those of the sampled network", "statement": "Let every table entry be at least t + 51e-7. For every confidence there is a sample size from which on, in all but a fraction delta of the (equiprobable) draws, sampling the network with random_sample, learning the parameters of the same structure from that sample with mle_estimator and asking the learned network with marginal_ve_e gives a vector of the right length everywhere within prod(1 + |v| (t + 51e-7)) - 1 + 5e-5 of the exact posterior weights of the original network (|v| number of values of node v); and ve_map on the learned network returns an assignment whose probability in the original network is within twice that product bound of optimal.", "quantifier": "every normalised network with positive tables, target, evidence, sample size above a threshold, positions inside the draw cells and set orders", "why_tests_cant": "a statistical law over all draws composed of three modules; any test sees one run", "anchors": ["pyBN/utils/random_sample.py:random_sample", "pyBN/learning/parameter/mle.py:mle_estimator", "pyBN/inference/marginal_exact/ve_marginal.py:marginal_ve_e", "pyBN/inference/map_exact/ve_map.py:ve_map"]}
{"id": "C119", "title": "ilp_map is optimal up to the rounding of its weights", "statement": "On a network with positive tables, every optimal 0/1 solution of the program ilp_map builds (weights round(-log p, 3)) describes exactly one assignment of values to nodes, whose joint probability is at least 1 - n/1000 (and exp(-n/1000)) times that of every assignment, n the number of nodes; an assignment that beats all others by more than the factor exp(n/1000) is the one returned; exact optimality does not hold: rounding to three decimals produces ties between assignments of different probability.", "quantifier": "every network with positive tables, every optimal solution and every competing assignment", "why_tests_cant": "it ranges over all networks and all solutions of an optimisation problem; a failing case needs two probabilities inside one rounding cell", "anchors": ["pyBN/inference/map_exact/ilp_map.py:ilp_map"]}
{"id": "C120", "title": "Log space: to_log and from_log", "statement": "to_log replaces every positive entry by its logarithm to within 5e-6 and 0 by -inf; to_log followed by from_log gives back a non-negative table to within 5e-6 + 5.1e-6 p, keeps 0 and 1 exactly and never reverses the order of two entries. The factor operations are not valid on a table of logarithms: maxout_var on the log of a table of probabilities is 0 (probability 1) everywhere, and multiply_factor of two such tables gives products of logarithms, which from_log reads as numbers of at least 1.", "quantifier": "every factor and every pair of factors with entries in (0,1]", "why_tests_cant": "the error bounds must hold for every real logarithm and entry; the misuse must be shown for every table", "anchors": ["pyBN/classes/factor.py:Factor.to_log", "pyBN/classes/factor.py:Factor.from_log", "pyBN/classes/factor.py:Factor.maxout_var", "pyBN/classes/factor.py:Factor.multiply_factor"]}
{"id": "C121", "title": "mb_fitness: the score of a Markov blanket dictionary", "statement": "When every needed test gives a p-value other than 0, mb_fitness returns one entry per target, the sum over the targets X outside the blanket of T (X different from T) of 1/p(T,X|blanket of T), whatever the set order; columns that are not targets are never tested, so with one target the score is 0 for any blanket and any data; a single p-value of 0 makes the call raise ZeroDivisionError; the score is at least (number of columns outside the blanket)/P when no p-value exceeds P, so a perfect blanket does not score near 0.", "quantifier": "every blanket dictionary, target argument, outcome of the tests and set order", "why_tests_cant": "it must hold for every outcome of every test and every iteration order of the sets", "anchors": ["pyBN/utils/markov_blanket.py:mb_fitness"]}
{"id": "C122", "title": "Factor operators edit their left operand; expressions are right when every object is used once", "statement": "For Factor objects made by Factor(bn, v), an expression built with *, -, / and // in which every object occurs at most once, with only present variables removed and listed values as evidence, evaluates to the mathematical product, restriction, sum and maximum; the result is the object of the leftmost variable itself, and objects not in the expression are untouched. An object used twice is not copied: (f/x)*(f/y) is always the square of the sum of f over x and y. After f*g the object g stays intact and independent when it is not wider than f; when it is wider, f and g share their cardinalities, and f/x makes every later removal of x from g raise KeyError.", "quantifier": "every network, list of objects, expression, set order and pre-existing object", "why_tests_cant": "it ranges over all expressions and over the aliasing of mutable parts, which shows only on later uses", "anchors": ["pyBN/classes/factor.py:Factor.__mul__", "pyBN/classes/factor.py:Factor.__sub__", "pyBN/classes/factor.py:Factor.__div__", "pyBN/classes/factor.py:Factor.__floordiv__", "pyBN/classes/factor.py:Factor.multiply_factor"]}
{"id": "C123", "title": "In-place editing and shared dicts never change the answer of exact inference", "statement": "marginal_ve_e and ve_map (with and without prob) work on Factor objects that are edited in place and come to share dicts; the vector, assignment or probability returned, or the exception raised, is the same as when every operation works on a fresh copy, for every network (well formed or not), evidence, and state of the interpreter, and Factor objects that existed before the call are unchanged.", "quantifier": "every network, target, evidence, set order and pre-existing heap", "why_tests_cant": "aliasing: depends on which objects share which dicts at every step of every run", "anchors": ["pyBN/inference/marginal_exact/ve_marginal.py:marginal_ve_e", "pyBN/inference/map_exact/ve_map.py:ve_map", "pyBN/classes/factorization.py:Factorization"]}
{"id": "C124", "title": "Queries that cannot be answered are refused", "statement": "marginal_ve_e raises ValueError exactly when the query is wrong - the target is not a node, or some evidence variable is not a node or is the target, or some evidence value is not a value of its node - and otherwise returns the rounded joint probabilities or raises NameError (disconnected factors); no other exception, and never an answer to a wrong query. ve_map, with any target and prob arguments, raises ValueError exactly when the evidence is wrong.", "quantifier": "every network, target, evidence dict and set order", "why_tests_cant": "no hypothesis on the query: all wrong queries of every size, mixed with right evidence in any order", "anchors": ["pyBN/inference/marginal_exact/ve_marginal.py:marginal_ve_e", "pyBN/inference/map_exact/ve_map.py:ve_map", "pyBN/classes/factor.py:Factor.reduce_factor"]}
{"id": "C125", "title": "What ve_map returns for each combination of target and prob", "statement": "ve_map(bn, evidence, target, prob) returns the most probable assignment, or its value at the target, alone or with the rounded joint probability of the whole assignment; a target that is not a node gives KeyError. The value returned for a target is its value in the most probable joint assignment, which can differ from the most probable value of the target.", "quantifier": "every network, evidence, target, prob flag and set order", "why_tests_cant": "the two readings agree on most small networks; the difference is a statement about sums over all assignments", "anchors": ["pyBN/inference/map_exact/ve_map.py:ve_map"]}
{"id": "C126", "title": "Any history of operations on a Factorization means what it says", "statement": "Start with Factorization(bn) or Factorization(bn, nodes) and apply any sequence of / v, // v and - (v, x), each on a variable still mentioned: it succeeds, the factors mention exactly the remaining variables, their product is the corresponding nesting of sums, maxima and restrictions of the product of the chosen conditional tables, and map_assignment holds exactly the observations. On a variable no factor mentions, / and // raise IndexError, while - is accepted silently, with any value.", "quantifier": "every network with non-negative tables, choice of nodes (repeated or not), sequence of operations and set order", "why_tests_cant": "it quantifies over all histories of operations", "anchors": ["pyBN/classes/factorization.py:Factorization.__div__", "pyBN/classes/factorization.py:Factorization.__floordiv__", "pyBN/classes/factorization.py:Factorization.__sub__", "pyBN/classes/factorization.py:Factorization.__init__"]}
{"id": "C127", "title": "Greedy search climbs and cannot run in circles", "statement": "Give a graph the score -nrow * sum over the nodes of mutual_information(node, parents). Every addition and deletion hc or tabu makes raises that score by exactly the difference it was chosen for; so without reversals no graph is visited twice, fewer than (n+1)^(n*n) moves are made however large max_iter is, and (debug=False) beyond that bound max_iter has no influence on the result, which is a local optimum or a graph whose best move is a reversal. Reversals break this: with debug=True two of them can alternate for ever, and the result then depends on the parity of max_iter.", "quantifier": "every score function (nan included), data table, restriction list, max_iter and set order", "why_tests_cant": "it is about runs of every length and all graphs over n nodes", "anchors": ["pyBN/learning/structure/score/hill_climbing.py:hc", "pyBN/learning/structure/score/tabu.py:tabu"]}
{"id": "C128", "title": "hc joins columns that depend on each other", "statement": "A structure learner should join dependent columns and leave unrelated ones apart. hc does the opposite: whenever some column is exactly independent of another one in the data and not nearly constant, hc (debug=False) returns a network with an edge; the parent a node gets with the first edge is always one with the smallest mutual information with it; and two copies of a column are left unconnected. On data of one-digit integers hc always returns.", "quantifier": "every data table of one-digit integers, max_iter, metric and set order", "why_tests_cant": "real-number inequalities over all data tables, combined with runs of every length", "anchors": ["pyBN/learning/structure/score/hill_climbing.py:hc", "pyBN/utils/independence_tests.py:mutual_information"]}
{"id": "C129", "title": "iamb turns the adjacencies it finds into a directed acyclic graph", "statement": "The directions iamb returns, exactly: x -> y only if x has another neighbour z not adjacent to y; the later column of such a pair always gets its direction; the earlier column keeps its own unless both have one, and then one single neighbour z of the later column, the first in the set's iteration order, decides: x -> y is dropped exactly when the test calls x and z dependent given y and some proper subset of the compared blanket. So two iteration orders can give different graphs; a chain of four columns with its true blankets always gets both directions between the middle columns, and with a perfect test iamb returns a cyclic network with no nodes for 0 -> 2 and two unrelated columns.", "quantifier": "every test, blanket dict, symmetric adjacency graph, data table and set iteration order", "why_tests_cant": "all graphs, all tests, all hash orders; the outcome for one pair depends on the whole order of processing", "anchors": ["pyBN/utils/orient_edges.py:orient_edges_gs2", "pyBN/learning/structure/constraint/iamb.py:iamb"]}
{"id": "C130", "title": "hill climbing with random restarts searches further than hill climbing", "statement": "What hc_rr does, for every sequence the random generator supplies: it climbs for at most max_iter + 1 steps; whenever a climb ends before its steps are used up and restarts are left, it makes exactly M random moves, each the first legal pair drawn for the operation drawn, and climbs again for at most max_iter steps; a climb that uses up its steps ends the search, restarts left or not. With R = 0 or M = 0 it returns what hc returns. With debug=False and max_iter large enough the result is a graph no legal move improves, or one where the best legal move is a reversal. But the best graph is not kept: the result can score lower than that of hc.", "quantifier": "every table with rows, score function, restriction list, M, R, max_iter, debug flag and stream of draws", "why_tests_cant": "all random streams and all data; a test sees one seed", "anchors": ["pyBN/learning/structure/score/random_restarts.py:hc_rr", "pyBN/learning/structure/score/hill_climbing.py:hc"]}
{"id": "C131", "title": "The Bayesian and the maximum-likelihood estimator", "statement": "For every structure on columns in order, every dataset and every positive equivalent sample size e, the entry bayes_estimator stores is (before rounding to 5 decimals) a mixture of the uniform distribution and the relative frequency with weight w = e/(e + q*D) on uniform, where q is the number of parent configurations and D the number of rows with the given parent values; the difference to mle_estimator's entry is w times (uniform - frequency) up to 1.01e-5. With a fixed e the two estimators therefore agree in the limit, as the docstring claims; with the default e = len(data) the weight never falls below 1/(1+q) (1/2 for a root), so the claim that they \"essentially converge to the same set of values as the size of the dataset increases\" is false. With e = 0 the entries are the rounded frequencies, and ZeroDivisionError is raised exactly when a combination of parent values was never seen.", "quantifier": "every structure, dataset, equivalent sample size, iteration order of dicts and sets", "why_tests_cant": "a limit over all dataset sizes; all structures", "anchors": ["pyBN/learning/parameter/bayes.py:bayes_estimator", "pyBN/learning/parameter/mle.py:mle_estimator"]}
{"id": "C132", "title": "Learning the parameters of some nodes only", "statement": "bayes_estimator(nodes=l) leaves the parameters of all other nodes as they were, and what it computes for l (as what mle_estimator(nodes=l) computes) depends only on the columns numbered like the nodes of l and on the columns 0..len(l)-1: the data of parents outside l are not looked at. If l is 0..k-1 and contains all parents of its nodes, the result is the one that learning all nodes gives. For a single node with a parent it is not: data in which the node copies its parent and data in which it is independent of it give the same table, contrary to the docstring (\"this function can be used to calculate only ONE conditional probability table\").", "quantifier": "every structure, pair of datasets, node list, iteration order", "why_tests_cant": "all datasets and node lists; non-dependence is a statement about pairs of runs", "anchors": ["pyBN/learning/parameter/bayes.py:bayes_estimator", "pyBN/learning/parameter/mle.py:mle_estimator", "pyBN/classes/bayesnet.py:BayesNet.cpt_indices"]}
{"id": "C133", "title": "When parameter learning raises", "statement": "For every structure and every dataset with at least one row, mle_estimator and bayes_estimator (with a positive equivalent sample size) return if every node is the number of a column of the data, and otherwise (a node named by a string, or by a number past the last column) both raise IndexError. On data without rows and with at least as many columns as nodes mle_estimator raises ValueError, bayes_estimator raises ZeroDivisionError, and mle_estimator(counts=True) returns empty tables.", "quantifier": "every structure, node naming, dataset, iteration order", "why_tests_cant": "a characterisation of all failing inputs", "anchors": ["pyBN/learning/parameter/bayes.py:bayes_estimator", "pyBN/learning/parameter/mle.py:mle_estimator"]}
{"id": "C134", "title": "Separated observations do not matter", "statement": "If the further observed nodes are d-separated from the target by the observed ones (every trail between them is blocked), they are irrelevant: P(t,ev,ev')P(ev)=P(t,ev)P(ev,ev'). The same holds when they are separated in the graph moralized_edges returns (even with tables that are not normalised or a cyclic graph), and whenever everything markov_blanket lists for the target is observed. When marginal_ve_e answers both queries, the two answers are one vector scaled by the probabilities of the observations; lw_sample converges to the conditional probability given the relevant observations alone. However, marginal_ve_e raises NameError for every query whose target has only observed parents.", "quantifier": "every network, target, evidence, iteration order; for lw_sample all draw tables", "why_tests_cant": "independence is a statement about all tables of a graph and all trails", "anchors": ["pyBN/inference/marginal_exact/ve_marginal.py:marginal_ve_e", "pyBN/classes/bayesnet.py:BayesNet.moralized_edges", "pyBN/utils/markov_blanket.py:markov_blanket", "pyBN/inference/marginal_approx/lw_sample.py:lw_sample"]}
{"id": "C135", "title": "Only ancestors matter", "statement": "Two networks that have the same parents, values and tables on a set of nodes closed under parents (and may differ in everything else: other nodes removed, added, rewired or given other normalised tables) give the same probabilities for every target and evidence inside that set, and the same answers whenever marginal_ve_e answers both.", "quantifier": "every pair of networks, ancestral set, target, evidence, iteration order", "why_tests_cant": "relates two arbitrary networks", "anchors": ["pyBN/inference/marginal_exact/ve_marginal.py:marginal_ve_e"]}
{"id": "C136", "title": "Table entries are conditional probabilities", "statement": "In a network with normalised tables and an acyclic graph, when all parents of a node are observed together with any other nodes that are not its descendants, P(node=x, evidence) = (table entry) * P(evidence): the entry found in the table at the observed parent values is the conditional probability. lw_sample converges to that entry.", "quantifier": "every network, node, evidence on non-descendants; for lw_sample all draw tables", "why_tests_cant": "quantifies over all networks and all evidence sets", "anchors": ["pyBN/classes/bayesnet.py:BayesNet", "pyBN/inference/marginal_approx/lw_sample.py:lw_sample"]}
{"id": "C137", "title": "Markov blankets with a perfect test", "statement": "If the independence test accepts exactly the d-separations of a directed acyclic graph over the columns, the grow phase of gs finds every member of the Markov blanket (parents, children, co-parents); its shrink phase returns exactly the Markov blanket when nothing else was found and never ends otherwise; so every blanket that gs gets to use is the Markov blanket, and gs does not return at all as soon as one grow phase has picked up a column outside the blanket.", "quantifier": "every directed acyclic graph, every number of columns, every faithful test, significance level and iteration order", "why_tests_cant": "ranges over all graphs and all tests that are faithful to them", "anchors": ["pyBN/learning/structure/constraint/grow_shrink.py:gs", "pyBN/utils/markov_blanket.py:markov_blanket"]}
{"id": "C138", "title": "Skeleton from exact blankets", "statement": "With such a test, resolve_markov_blanket turns the Markov blankets into exactly the adjacencies of the graph, and every edge of a network that gs returns joins two adjacent nodes of the graph. The directions are not those of the graph: for 0 -> 2 <- 1 gs returns 1 -> 2 and 2 -> 1 together.", "quantifier": "every directed acyclic graph, faithful test, iteration order, table", "why_tests_cant": "ranges over all graphs and all tests that are faithful to them", "anchors": ["pyBN/utils/markov_blanket.py:resolve_markov_blanket", "pyBN/learning/structure/constraint/grow_shrink.py:gs"]}
{"id": "C139", "title": "pc keeps true adjacencies", "statement": "With such a test the undirected graph of pc contains every adjacency of the true graph, and every separating set that pc records d-separates the two columns, which are not adjacent.", "quantifier": "every directed acyclic graph, faithful test, significance level, number of columns", "why_tests_cant": "ranges over all graphs and all tests that are faithful to them", "anchors": ["pyBN/learning/structure/constraint/path_condition.py:pc"]}
{"id": "C140", "title": "iamb never returns a non-empty Markov blanket", "statement": "With such a test and an association measure that is 0 exactly for separated columns, the growing phase of iamb finds every member of the Markov blanket, but the shrinking phase removes the first column of the grown list exactly when it does belong to the Markov blanket; so the blanket iamb records for a column is its Markov blanket only if both are empty.", "quantifier": "every directed acyclic graph, faithful test and measure, iteration order, significance level", "why_tests_cant": "ranges over all graphs, tests and iteration orders", "anchors": ["pyBN/learning/structure/constraint/iamb.py:iamb"]}
{"id": "C141", "title": "Bayesian learning from a network's own samples", "statement": "With any fixed positive equivalent sample size and no explicit prior, bayes_estimator applied to rows drawn by random_sample from a network with the same parents comes as near as wanted (up to the rounding of the two rounding steps) to the tables of that network, with probability tending to one at an explicit rate; marginal_ve_e and ve_map on the learned network then answer as near as wanted to the source. With the default (no) equivalent sample size this fails: the table entries converge to w/k + (1-w)p, where p is the true probability, k the number of values of the node and w = 1/(1 + q P(values of the parents)) with q the number of combinations of values of the parents (the midpoint between p and 1/k for a node without parents); for any s below w|1/k - p| the probability that an entry is learned within s of the truth tends to zero.", "quantifier": "every source network with enough precision, every skeleton with the same parents, equivalent sample size, error bound, probability bound, evidence, iteration order and every sufficiently large number of rows", "why_tests_cant": "a limit statement over all sample sizes and all random outcomes", "anchors": ["pyBN/learning/parameter/bayes.py:bayes_estimator", "pyBN/utils/random_sample.py:random_sample", "pyBN/inference/marginal_exact/ve_marginal.py:marginal_ve_e", "pyBN/inference/map_exact/ve_map.py:ve_map"]}
{"id": "C142", "title": "Nodes added with omitted arguments; networks built from nothing", "statement": "In every program that makes networks with BayesNet(), BayesNet(E, values) and copy() and edits them in any order: add_node(rv) appends a node with an empty table and no values, whatever happened before; but its parents list is one list object shared by all such nodes, with whatever add_edge has put there. A network made by BayesNet() never gets an edge: add_edge raises KeyError for every pair of nodes, forever, and so does every network of a program that passes no edge dict.", "quantifier": "every program (history of constructor calls, copies and edits, exceptions caught), every network and node", "why_tests_cant": "unbounded histories; mutable default arguments shared between objects", "anchors": ["pyBN/classes/bayesnet.py:BayesNet.add_node,add_edge,copy,__init__,set_structure"]}
{"id": "C143", "title": "Answers to different questions fit together", "statement": "Asking marginal_ve_e for t with e=y observed and for e with t=x observed gives the same number in entry x of the one and entry y of the other, or both calls raise the same exception. If the query with e=y observed is answered, then so is the query without e and with every other value of e, and adding up over the values of e gives the answer without e up to half a unit of the fourth decimal per rounded number. Observing more never makes an entry larger. Two networks over the same nodes and values with the same joint distribution give the same answers whenever both answer, and most probable explanations of equal probability, however the joint is factored into tables.", "quantifier": "every well-formed network, target, evidence, iteration order", "why_tests_cant": "relates pairs and families of queries on all networks", "anchors": ["pyBN/inference/marginal_exact/ve_marginal.py:marginal_ve_e", "pyBN/inference/map_exact/ve_map.py:ve_map"]}
{"id": "C144", "title": "Names carry no meaning", "statement": "Give every node and every value of a network another name (different nodes different names, different values of a node different names), keep tables, parent orders and value orders, and list the nodes in any order: marginal_ve_e gives the same list of numbers, or raises NameError for the same queries; ve_map finds an explanation of the same probability, which translated back is a most probable explanation of the original network. If the nodes are also listed in the corresponding order, parents first, the samplers given the same uniform numbers draw the same rows (random_sample) and answer the same tables under the new names (forward_sample, gibbs_sample, lw_sample with the evidence renamed).", "quantifier": "every well-formed network, every renaming, query, evidence and iteration order", "why_tests_cant": "all renamings of all networks", "anchors": ["pyBN/inference/marginal_approx/forward_sample.py:forward_sample", "pyBN/inference/marginal_approx/lw_sample.py:lw_sample", "pyBN/inference/marginal_approx/gibbs_sample.py:gibbs_sample", "pyBN/utils/random_sample.py:random_sample", "pyBN/inference/marginal_exact/ve_marginal.py:marginal_ve_e", "pyBN/inference/map_exact/ve_map.py:ve_map", "pyBN/classes/factorization.py:Factorization.__init__"]}
{"id": "C145", "title": "traceback_map gives the most probable values of the maximised nodes", "statement": "Make a Factorization, apply / and - in any order, then // to every node left, then traceback_map(): the values returned for the maximised nodes, together with the observations, have the largest probability (the nodes removed by / being summed out); calling traceback_map() again returns the same. With one node maximised it is that node's most probable value given the evidence, which ve_map(target=...) is not. An observation made after a // is recorded but ignored: the values returned can then have probability 0. refresh() restores the whole network whatever was done before, even on an object made for chosen nodes.", "quantifier": "every well-formed network with non-negative tables, every history of sums and observations followed by every order of maximisations, every choice of nodes and set order", "why_tests_cant": "it quantifies over all histories of operations on all networks", "anchors": ["pyBN/classes/factorization.py:Factorization.traceback_map", "pyBN/classes/factorization.py:Factorization.refresh", "pyBN/classes/factorization.py:Factorization.max_product_eliminate_var"]}
{"id": "C146", "title": "The order in which a network is written down does not change its answers; saving and loading", "statement": "Two networks with the same nodes, parents, values and conditional probabilities, but nodes and dicts listed in different orders, give equal results (numbers or exception) to every marginal_ve_e query, equally probable explanations and the same probability (or exception) from ve_map, and, if both node lists are topological, the same distribution of random_sample tables. Hence a network saved by write_bn and loaded by read_bn answers every query as before. Sampling is the exception: the loaded network can list a node before its parent, and then forward_sample raises KeyError on a network it could sample before saving.", "quantifier": "every pair of well-formed networks of the same model, every query, evidence, hash order, and every loaded dict order", "why_tests_cant": "orders of nodes, dicts and sets multiply with queries; a test fixes one", "anchors": ["pyBN/inference/marginal_exact/ve_marginal.py:marginal_ve_e", "pyBN/inference/map_exact/ve_map.py:ve_map", "pyBN/io/read.py:read_bn", "pyBN/io/write.py:write_bn", "pyBN/utils/random_sample.py:random_sample", "pyBN/inference/marginal_approx/forward_sample.py:forward_sample"]}
{"id": "C147", "title": "A node without values blocks every query and every sampler", "statement": "If some node of a network has an empty list of values (the state add_node(rv), or add_edge to an unknown node, leaves behind), then summing, maximising or conditioning that variable out of any factor built from the network raises ZeroDivisionError; marginal_ve_e for any other target and ve_map with any arguments never return an answer, whatever the evidence; and forward_sample, random_sample, gibbs_sample and lw_sample never return for n > 0.", "quantifier": "every network with such a node, every target, evidence, elimination and set order, every state of the random generator", "why_tests_cant": "no finite set of half-built networks shows that none of them is ever answered", "anchors": ["pyBN/classes/factor.py:Factor.sumout_var", "pyBN/classes/factor.py:Factor.reduce_factor", "pyBN/inference/marginal_exact/ve_marginal.py:marginal_ve_e", "pyBN/inference/map_exact/ve_map.py:ve_map", "pyBN/utils/random_sample.py:random_sample"]}
{"id": "C148", "title": "A clique of a clique tree can send one message to a smaller neighbour, by either method", "statement": "Clique.send_initial_message from clique i of a new clique tree to clique j with another scope delivers the same message as i >> j: the sender's potential summed over the variables j lacks (KeyError if the potential lacks one of them). Its documented 'copy' of the potential is shallow: afterwards the sender's potential, its old belief and its new belief have all lost these variables from their scopes but keep the full table, so every further message of either kind from i to j raises KeyError. A clique that was never given a potential raises AttributeError when it sends the first message or is marginalised.", "quantifier": "every network, clique tree, pair of cliques, set order", "why_tests_cant": "aliasing through copy.copy shows only in later calls, and must be ruled in or out for every tree and order", "anchors": ["pyBN/classes/cliquetree.py:Clique.send_initial_message", "pyBN/classes/cliquetree.py:Clique.send_message", "pyBN/classes/factor.py:Factor.sumout_var"]}
{"id": "C149", "title": "A BayesNet used as a dictionary key is found by identity only", "statement": "If d[bn] = v was stored and bn's nodes and edges are unchanged, d[bn] returns v (whatever happened to probabilities); if the nodes or edges changed and the new hash is not the hash of any stored key, d[bn] raises KeyError; d[other] for another object with the same nodes and edges raises TypeError instead of finding v; a network with nodes is never found under another object. Networks without nodes are all the same key.", "quantifier": "every dictionary, hash function, pair of networks and change between storing and looking up", "why_tests_cant": "equality and hash are called inside the dictionary, for every pair of keys", "anchors": ["pyBN/classes/bayesnet.py:BayesNet.__hash__", "pyBN/classes/bayesnet.py:BayesNet.__eq__", "pyBN/utils/class_equivalence.py:are_class_equivalent"]}
{"id": "C150", "title": "What a factor prints, and how many factors a factorization holds", "statement": "str and repr of a factor are 'v | p1, p2, ...': its variable and the other variables of its scope in order; TypeError exactly when one of them is a number. Factor(bn, v) prints v and its parents. After summing v out of its own table or observing it (all variables with two or more values) the factor calls itself the first parent given the other parents. F / v and F // v succeed only if a factor mentions v; len then drops by the number of factors mentioning v minus one, the untouched factors keep their order and F[-1] is the new one; F - (v, x) keeps len. A clique tree is indexed by the clique numbers in its V; the name of a node is a KeyError.", "quantifier": "every factor, network, factorization, operation and iteration order", "why_tests_cant": "all tables and histories", "anchors": ["pyBN/classes/factor.py:Factor.__str__", "pyBN/classes/factor.py:Factor.__repr__", "pyBN/classes/factorization.py:Factorization.__len__", "pyBN/classes/factorization.py:Factorization.__getitem__", "pyBN/classes/cliquetree.py:CliqueTree.__getitem__"]}
{"id": "C151", "title": "The layout of a .bif file does not matter", "statement": "Two .bif files whose lines consist of the same words, however these are separated, preceded or followed by blanks (spaces, tabs, form feeds, carriage returns, line ends), are read into the same network or fail with the same exception; lines before the first declaration have no effect unless they contain one of the words the reader looks for. So every file that lays out a well-formed document in its own way is read into the network of the document. A blank next to a parenthesis of a probability line may not be left out: the reader then raises KeyError.", "quantifier": "every file, every pair of layouts of it, every preamble and every order of iteration of the dictionaries", "why_tests_cant": "There are infinitely many layouts of one document; a test reads the files of the repository, all of which are laid out in the same way.", "anchors": ["pyBN/io/read.py:read_bif", "pyBN/io/read.py:read_bn"]}
{"id": "C152", "title": "The orders of parents and of values are conventions", "statement": "List the nodes, the parents of each node and the values of each node in other orders and arrange the tables accordingly (for any values of a node and its parents both tables contain the same number): every marginal_ve_e query raises the same exception or returns the same numbers, each at the position its value now has; ve_map finds an explanation of the same probability, which is a most probable one in both networks, and reports the same probability or raises NameError on both; if the nodes are listed parents first in both, random_sample draws any table of named values from both with the same frequency. Where several explanations are equally probable the one returned can be another one.", "quantifier": "every network, reordering, query, evidence and order of iteration", "why_tests_cant": "There are factorially many orders for each node, and a test fixes one of them.", "anchors": ["pyBN/inference/marginal_exact/ve_marginal.py:marginal_ve_e", "pyBN/inference/map_exact/ve_map.py:ve_map", "pyBN/classes/factor.py:Factor.__init__", "pyBN/classes/bayesnet.py:BayesNet"]}
{"id": "C153", "title": "The order of the rows does not matter", "statement": "List the rows of the data in another order. mi_test, mutual_information (two or more columns, also conditional), entropy and mi_from_en return the same number or raise the same exception; pc, gs, iamb, chow_liu, hc, tabu and hc_rr return the same network or raise the same exception for the same choices of order, and mle_estimator and bayes_estimator learn the same values of every node and the same tables.", "quantifier": "every table, every reordering of its rows, and every choice of columns, thresholds, scores and iteration orders (non-empty tables for the score-based searches and the estimators)", "why_tests_cant": "There are factorially many orders of the rows of one table and a test runs a few.", "anchors": ["pyBN/utils/independence_tests.py:mi_test", "pyBN/utils/independence_tests.py:mutual_information", "pyBN/utils/independence_tests.py:entropy", "pyBN/utils/independence_tests.py:mi_from_en", "pyBN/learning/structure/constraint/path_condition.py:pc", "pyBN/learning/structure/constraint/grow_shrink.py:gs", "pyBN/learning/structure/constraint/iamb.py:iamb", "pyBN/learning/structure/tree/chow_liu.py:chow_liu", "pyBN/learning/structure/score/hill_climbing.py:hc", "pyBN/learning/structure/score/tabu.py:tabu", "pyBN/learning/structure/score/random_restarts.py:hc_rr", "pyBN/learning/parameter/mle.py:mle_estimator", "pyBN/learning/parameter/bayes.py:bayes_estimator"]}
