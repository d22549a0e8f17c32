# Formal model of DeepHypergraph (dhg)

## 1. Representation

* The code is Python on top of torch, numpy and scipy. The model is a shallow
  embedding in Coq 8.16.1: every modelled function is a total Gallina function
  that mirrors the Python function branch by branch. Python exceptions are
  values (`Err AssertionError`, `Err ValueError`, ...).
* Integers (vertex indices, counts) are `Z`; lengths and positions are `nat`.
* Numbers are elements of any type with the class `Num` (zero, one, +, -, *,
  inverse, comparison, conversion from integers). Equational theorems assume a
  ring (and field laws where the code divides), so they hold for the rationals
  and the reals alike. Inequalities, roots, exponentials and logarithms use the
  standard library's reals. Where nan or infinities are observable the type is
  `fl T` (finite, +inf, -inf, nan). **Floating-point rounding is not modelled.**
* Features are treated one column at a time, as functions from rows to numbers.
* A Python dict is an insertion-ordered association list with unique keys
  (`PyDict`). A torch sparse COO tensor is a list of `((row, col), value)`;
  `coalesce()` sorts by index and adds duplicates (`Coo`).
* The result cache of a structure (`self.cache`, `self.group_cache`) is part of
  the model state and all cached properties are state-monad functions, so "no
  stale answers" is a theorem and not an assumption.
* Randomness, shuffles, k-nearest-neighbour searches, argsort, argmax, convex
  hulls, PCA/t-SNE, servers, loaders, training steps, activations, dropout
  masks and optuna's sampler are universally quantified function arguments,
  never axioms. Hypotheses on them (for instance "the order sorts the scores")
  are visible in each theorem.
* Loops without a bound take `fuel`; `None` means "still running". Theorems
  about them quantify over all fuel.
* Object identity matters for aliasing (clone, state_dict): for that there is a
  heap model with addresses (`ModelHeap`).

## 2. Layout of the development (`rocq/theories`)

| kind | files | content |
|------|-------|---------|
| base | `Num`, `PyDict`, `Coo` | numbers, dicts, sparse matrices |
| model | `Model*.v` | definitions only; each cites file and lines in /repo |
| specification | `Spec*.v` | small definitions the theorems are stated with: finite maps, matrices, walks, ... |
| proofs | `*Facts`, `*Reach`, `*Matrix`, `*Ops`, `*Store`, `*Pass`, `*View`, `*Laplace` | lemmas |
| properties | `Prop*.v` | the theorems `Cnn_...` of MANIFEST.json and, next to them, `Example`s that show their hypotheses can be met |

Naming: `Cnn_..._actual` describes what the code does where this differs from
its documentation, `Cnn_..._refuted` is a concrete witness against the
documented claim, `Cnn_..._partial` would be a theorem weaker than its property
(there is none at present).

## 3. Property by property

| ids | model | proof method |
|-----|-------|--------------|
| C01, C14, C21 | `ModelGraph`, `ModelDiGraph`, `ModelBiGraph`: ordered dicts, self-loop dict, extra flag | refinement: simulation relation to a finite map from (unordered) pairs, induction over the operation list |
| C02, C15, C22, C28 | the same state machines with the cache in the state | invariant: every cached value equals the value recomputed from the raw data; induction over interleavings of mutations and queries |
| C03, C16, C23, C29 | sparse matrices as COO lists built as the code does | algebra of finite sums |
| C04, C05, C26, C34 | matrices over any ring (L) and R (normalised forms) | algebra, sum of squares |
| C06, C07, C19, C25, C35, C36 | v2v/u2v/v2e/e2v on matrices | algebra; `_actual` theorems where the code multiplies instead of dividing (C36, C75, C78, C80) |
| C08, C39 | powers of A as in N_v / kHop | induction over hop, walks as an inductive relation |
| C09, C37, C74 | state_dict/from_state_dict/clone/load | equality of abstract states, then bisimulation over later histories |
| C10, C83 | `ModelHeap`: heap of dict cells and object records | separation invariant over all interleavings |
| C11, C32 | drop with an oracle stream | induction over the edge list |
| C12, C13, C79, C81, C82 | argument formatting, merge operators | case analysis, permutation induction |
| C17, C18, C24, C30, C31, C77 | as C14/C21/C27 | algebra over index offsets |
| C20, C38, C90 | kNN with an oracle returning the nearest points | list reasoning |
| C27, C84-C89 | `ModelHyper`: Hypergraph state machine with groups, group cache, vertex weights | refinement; witnesses for the defects |
| C33, C88 | subgraph | list reasoning; refutation for colliding restrictions |
| C40-C42, C91-C93 | `ModelConv`: conversions between structures | list reasoning |
| C43, C44, C94, C95 | `ModelUtils`: utils/structure.py | permutations, sorting |
| C45, C46, C96, C178 | splits with an oracle shuffle | permutation reasoning |
| C47, C48, C97 | sparse_dropout, C | list reasoning; reals for exp/log |
| C49-C52, C98-C100 | `ModelRandom`: generators driven by a stream, loops with fuel | invariants; non-termination by counting |
| C53-C57, C101-C106, C113 | `ModelMetrics`: metrics over any order that sorts the scores | sums, rearrangement inequality |
| C58, C59, C107-C112 | `ModelEval`: evaluator state machine, printed markers | invariant over call histories |
| C60 | label vectors | counting |
| C61, C117-C119 | `ModelData`: dataset wrapper with random stream | list reasoning |
| C62, C63, C114-C116 | loader/downloader state machines with oracle environment | invariants over histories |
| C64, C120 | scaling, text tables | real algebra; string reasoning |
| C65, C66, C121 | `ModelNN`: losses | analysis in `Reals` |
| C67, C175 | all matrices and message passing under a vertex permutation | re-indexing of sums |
| C184, C185 | the ready-made networks under a vertex permutation | formulas of C69, C127, C141; induction on the layers |
| C68, C69, C122, C123, C125-C128 | `ModelNN`: convolution layers and models | algebra; refutation by witness |
| C70, C124, C129 | `ModelRun`: training loop and search | induction over epochs and trials |
| C186-C192 | `ModelTask`: studies, recommendation and vertex classification tasks; model, optimizer, sampler, pruner and loaders as arguments | invariant of the evaluator over epochs and trials; permutations of batches; equality of pairs of runs |
| C193-C196 | `ModelWork`: directory tree with inodes, handlers of the logger | case analysis of each step, invariant over histories |
| C197 | `ModelTask.vc_task`, `ModelEval.classification_impl` with the confusion matrix | form of the results of every metric; the marker tells the metric |
| C198-C199 | `ModelDiGraph.d_knn` with neighbour rows as an oracle | rows of different points in any order; order of ties |
| C200 | `ModelUtils.ui_num`, `ui_ratio`, Python slices | both reduce to the split by an arbitrary non-negative cut |
| C71-C73, C130-C133 | `ModelVis`: geometry over `R`, force simulation, hulls, edges | trigonometry, interval bounds, invariants over the iterations |
| C134-C136 | `ModelEmbed`: Poincare ball, plot box | real analysis |
| C137, C138 | `ModelHeap`: the caller's lists as cells shared with the object | heap executions, witnesses |
| C139-C144 | `ModelModels`, `ModelCF`: the networks layer by layer, learnable maps as arguments | induction over the layers with a ball / bipartite distance invariant |
| C145, C151, C156, C168 | `ModelMetrics`, `ModelEval`, `ModelMisc`: shapes of inputs, keyword settings, f1_score | case analysis, algebra of counts |
| C146-C148 | `ModelMisc`: generator states of random, numpy and torch | equality of states, induction over calls |
| C149 | `ModelMisc`: streams and the copying writer | induction over the writes |
| C150, C152-C155, C176, C177 | `ModelHyper`, graph classes: other sources of hyperedges, index ranges, unknown or repeated vertices | refinement theorems of C27/C28 reused, case analysis |
| C157, C163, C169, C170, C174 | `ModelVis`: one step and the whole simulation with infinities and nan | real algebra, invariant over the iterations |
| C158-C162, C182, C183 | `ModelDraw`: the drawing functions up to the calls of matplotlib | case analysis, geometry of C71-C73 |
| C164-C167 | message passing with dropped entries, Laplacian smoothing | algebra of sparse matrices, witnesses |
| C171-C173, C179-C181 | `ModelMore`: R matrices, self-loop methods on BiGraph, UniGCN with nan, inverse square roots of negative degrees, weights that are Python integers | case analysis on reached states; matrix algebra |

## 4. Trusted base

* The Coq 8.16.1 kernel including its `vm_compute`; `coqchk` accepts the build.
* The reading of the Python source recorded in the comments, and the
  simplifications of section 5.
* No axiom of our own. The axioms below are those of Coq's standard library that
  `Print Assumptions` lists, theorem by theorem. They come from the construction
  of the real numbers (`sig_forall_dec`, `sig_not_dec`), from functional
  extensionality that the same construction uses, and from `classic` that some
  lemmas on real functions use.

**Closed under the global context** (308 theorems):

C01_graph_store, C02_graph_fresh, C02_queries_pure, C03_adjacency, C03_coordinates, C03_handshake,
C04_entries, C04_laplacian, C05_normalised, C06_v2v, C07_sum, C08_hops, C09_bigraph, C09_digraph,
C09_graph, C09_state_dict, C100_uniform_actual, C106_ratio_actual, C107_no_data_actual,
C108_live_actual, C109_floats_actual, C109_shared_slot_actual, C10_bigraph, C10_copies, C10_digraph,
C10_graph, C10_hyper_copies, C10_hypergraph, C110_batches_actual, C111_partly_recorded_actual,
C112_curve_actual, C114_outside_cache_actual, C115_corrupt_actual, C116_interrupted_actual,
C117_all_items_actual, C118_no_end_actual, C119_idle_user_actual, C11_bad_ord, C120_empty_cell,
C120_table, C122_unigin_actual, C122_unigin_refuted, C123_first_fails, C123_stale_graph_actual,
C123_stale_graph_refuted, C127_lightgcn, C128_refused, C128_sum_mean, C12_bigraph, C12_constructor,
C12_digraph, C12_graph, C137_shared_weights_actual, C137_stale_W_v_actual, C138_caller_list_actual,
C138_caller_list_refuted, C138_reuse, C139_gcn, C139_gin, C139_graphsage, C13_bigraph, C13_digraph,
C13_graph, C13_sum_value, C140_hgnn, C140_hnhn, C140_unigin, C142_bgnn, C143_Xu_ignored_actual,
C143_last_layer_ignored_actual, C144_cascade, C146_features, C146_refused, C147_reproducible,
C147_seed, C148_half_set_actual, C149_copied, C149_install, C14_digraph_saved, C14_digraph_store,
C150_add_source, C152_bigraph, C152_digraph, C152_graph, C152_hypergraph,
C153_negative_hyperedge_actual, C153_negative_hyperedge_refuted, C154_unknown_vertex_accepted,
C154_unknown_vertex_actual, C154_unknown_vertex_refuted, C155_repeated_vertex_actual,
C155_repeated_vertex_refuted, C156_classification, C156_ranking, C15_digraph_fresh,
C15_queries_pure, C164_bigraph, C164_digraph, C164_extremes, C164_graph, C164_hypergraph,
C165_smoothing, C16_coordinates, C16_matrices, C171_R_actual, C172_clone_actual,
C172_selfloops_actual, C175_bigraph, C175_bigraph_histories, C175_digraph, C175_digraph_histories,
C176_constructor, C177_default_actual, C177_default_refuted, C178_too_few, C178_too_many_actual,
C17_reverse, C184_gin, C184_graph, C184_hnhn, C184_hypergraph, C184_norm, C184_unigin,
C185_lightgcn, C189_test, C18_neighbour_duality, C193_keeps, C193_overwrite, C193_possible,
C194_missing, C195_absolute_actual, C195_everything_actual, C196_repeated_actual,
C196_shared_actual, C19_custom_sum, C19_reverse_exchanges, C19_v2v, C200_num_actual,
C200_ratio_actual, C21_bigraph_store, C22_bigraph_fresh, C22_queries_pure, C23_coordinates,
C23_matrices, C23_neighbours, C24_switch, C25_custom_sum, C25_pass, C25_switch_exchanges,
C26_gcn_matrix, C27_global, C27_reject, C27_same_edge, C27_store, C28_fresh, C28_queries_pure,
C29_coordinates, C29_degrees, C29_incidence, C29_vertex_weights, C30_neighbours, C30_out_of_range,
C31_isolated, C31_side_by_side, C32_bad_ord, C33_reject, C33_subgraph, C34_formulas,
C35_bad_aggregation, C35_e2v, C35_v2e, C35_v2v_plain, C35_v2v_stages, C36_weighted_mean_actual,
C36_weighted_mean_refuted, C36_weighted_sum, C36_weighted_sum_back, C37_clone, C37_files,
C37_reload, C38_add_from, C38_from_graph, C38_kNN_reject, C39_kHop, C39_reject, C40_degrees,
C40_from_bigraph, C40_reject, C40_round_trip, C40_to_bigraph, C41_clique, C41_star, C43_adj_dict,
C43_adj_round_trip, C43_edges, C43_round_trip, C44_adj, C44_adj_bipartite, C44_bijection, C44_edges,
C44_edges_bipartite, C45_by_exact_ratio, C45_by_num, C45_by_ratio, C45_reject, C46_by_num,
C46_by_ratio, C47_dropout, C47_reject, C47_zero, C49_bigraph, C49_bigraph_ends,
C49_bigraph_possible, C49_digraph, C49_digraph_ends, C49_digraph_possible, C49_graph,
C49_graph_ends, C49_graph_possible, C49_rejects, C50_bigraph, C50_bigraph_rejects, C50_digraph,
C50_extremes, C50_graph, C50_rejects, C52_uniform_Gnm, C52_uniform_Gnm_ends,
C52_uniform_Gnm_possible, C52_uniform_Gnm_rejects, C52_uniform_Gnm_too_large, C52_uniform_Gnp,
C52_uniform_Gnp_rejects, C58_test, C58_validate, C59_distinct, C59_slots, C59_test, C60_confusion,
C61_negative, C61_new, C61_range, C61_terminates, C61_test, C62_compose, C62_once,
C62_only_requested, C62_piped, C62_reload, C62_stable, C63_local, C63_recovers, C63_verified,
C67_graph, C67_graph_histories, C67_hypergraph, C67_hypergraph_histories, C68_layer, C68_slow,
C69_dhcf, C69_gcn, C69_gin, C69_graphsage, C69_hgnn, C69_hnhn, C69_unisage, C74_bigraph,
C74_digraph, C74_graph, C74_rejects, C75_weighted_mean_actual, C75_weighted_mean_refuted,
C76_softmax_default_refuted, C77_reverse_stale_actual, C77_reverse_stale_refuted,
C78_weighted_mean_actual, C78_weighted_mean_refuted, C79_negative_accepted_actual,
C80_weighted_mean_actual, C80_weighted_mean_refuted, C81_short_weights_actual, C82_mean_actual,
C82_mean_refuted, C83_hyper_state_dict_live_refuted, C83_state_dict_live_refuted,
C84_stale_after_failed_add_actual, C84_stale_after_failed_add_refuted, C85_no_groups_actual,
C85_no_groups_refuted, C86_vertex_weights_lost_actual, C86_vertex_weights_lost_refuted,
C87_clear_loses_weights_actual, C87_clear_loses_weights_refuted, C88_collision_last_wins_actual,
C88_collision_last_wins_refuted, C89_clone_stale_Wv_actual, C89_clone_stale_Wv_refuted,
C90_knn_merges_actual, C91_bigraph_merges_actual, C91_bigraph_merges_refuted, C94_isolated_actual,
C94_isolated_refuted, C95_renumbered_refuted, C95_string_order_actual, C96_gaps_actual,
C96_gaps_refuted, C98_digraph_actual, C98_graph_actual

**`ClassicalDedekindReals.sig_forall_dec`** (1 theorems):

C73_layout_edges_actual

**`ClassicalDedekindReals.sig_forall_dec`, `FunctionalExtensionality.functional_extensionality_dep`** (23 theorems):

C109_collision_refuted, C11_bigraph, C11_digraph, C11_extremes, C11_graph, C11_hypergraph,
C124_minimize_actual, C124_no_score_actual, C124_no_structure_actual, C129_best_trial,
C129_failure_leaves, C129_files, C129_no_result, C189_blind, C190_reported, C192_classification,
C32_one_group, C38_kNN, C48_rounding, C48_rounding_ties, C70_best_epoch, C70_pruned,
C90_knn_merges_refuted

**`ClassicalDedekindReals.sig_forall_dec`, `ClassicalDedekindReals.sig_not_dec`, `FunctionalExtensionality.functional_extensionality_dep`** (62 theorems):

C03_inverse, C04_laplacian_psd, C05_gcn_energy, C05_rw_constants, C06_mean_between, C07_softmax,
C121_negative_refuted, C121_odd_actual, C125_vertex_ignored_actual, C126_one_edge_actual, C128_max,
C132_line_edge, C134_proj, C139_gat, C13_order_free, C140_unigat, C140_unigcn, C141_dhcf, C141_ngcf,
C141_normalised, C142_bounded, C157_balance, C166_bigraph_actual, C166_digraph_actual,
C166_graph_actual, C166_hypergraph_actual, C166_refuted, C166_single_actual, C167_smoothing_actual,
C179_hypergraph_actual, C179_negative_degree_actual, C180_bigraph_actual, C180_digraph_actual,
C180_graph_actual, C181_hypergraph_actual, C184_gat, C184_unigat, C184_unigcn, C185_dhcf, C185_ngcf,
C187_unseen_first, C198_refused_actual, C199_first_dropped_actual, C199_self_loop_actual,
C19_softmax, C20_knn, C25_mean_between, C25_softmax, C26_gcn_energy, C34_constants, C34_energy,
C35_bounds, C36_softmax, C42_hypergcn, C42_reject, C66_even, C69_gat, C69_unigcn,
C73_not_attracted_actual, C92_miu_actual, C93_mediator_actual, C93_pairs_lost_actual

**`ClassicalDedekindReals.sig_forall_dec`, `ClassicalDedekindReals.sig_not_dec`, `Classical_Prop.classic`, `FunctionalExtensionality.functional_extensionality_dep`** (120 theorems):

C100_Gnm_actual, C100_custom_actual, C101_not_binary_refuted, C101_nothing_relevant_actual,
C102_negative_actual, C102_zero_actual, C103_below_k_refuted, C103_ignored_actual,
C104_not_first_actual, C105_below_k_actual, C105_mean_actual, C105_nothing_relevant_actual,
C111_refused_batch_actual, C113_overstated_refuted, C130_single_vertex_actual, C131_nested,
C131_outlines, C132_drawing, C133_ignored_actual, C133_short_labels_actual, C134_into_ball,
C134_inverse, C135_constant_column_actual, C135_points, C135_prestage_actual, C135_rejects,
C136_plot, C145_exchange, C145_f1, C145_rename, C145_reorder, C146_noiseless, C151_accepted,
C151_method, C151_one_sample, C151_ratio, C151_shape, C154_draw_actual, C156_method, C156_points,
C156_text, C157_step, C157_step_bipartite, C158_colours, C158_sizes, C158_style, C159_lines,
C159_short, C160_graph, C160_hypergraph, C161_bigraph, C162_bigraph_actual, C162_font_actual,
C163_layout, C163_layout_bipartite, C168_classification, C168_recommender, C168_retrieval,
C169_draw_actual, C169_groups_actual, C169_layout_actual, C170_meet, C170_three_actual,
C173_unigcn_actual, C174_draw_actual, C182_draw, C182_outlines, C182_refused, C183_hub_actual,
C183_star_actual, C186_reported, C187_precision, C188_actual, C190_accuracy, C191_actual,
C192_recommender, C197_actual, C48_binomial, C51_digraph, C51_digraph_reachable, C51_graph,
C51_graph_reachable, C51_rejects, C52_Gnm, C52_Gnm_ends, C52_Gnm_rejects, C52_custom, C52_weights,
C53_one_dim, C53_recall_mono, C53_scores, C53_values, C54_ndcg, C55_bounds, C55_legacy, C55_map,
C55_methods, C55_pascal, C56_mrr, C56_rr, C57_batch, C57_curve, C58_partition, C60_accuracy,
C60_reorder, C64_min_max, C64_norm, C64_norms, C64_refused, C65_activations, C65_ranking,
C71_inside_actual, C71_polar_angle, C71_tangent, C72_bipartite_layout, C72_completes,
C72_force_layout, C97_out_of_range_actual, C97_out_of_range_refuted, C99_endpoints_actual

## 5. What is modelled and what is not

Modelled, function by function (file:lines in the comments):

* `structure/base.py`, `structure/graphs/{graph,directed_graph,bipartite_graph}.py`,
  `structure/hypergraphs/hypergraph.py`: constructors, `from_*`, mutators,
  `state_dict`/`load`/`clone`, neighbour and degree queries, all matrices,
  smoothing, message passing, drop, subgraph, conversions.
* `utils/{structure,dataset_split,dataset_wrapers,download,sparse,math}.py`,
  `simple_stdout2file` of `utils/logging.py`.
* `random/graphs/*`, `random/hypergraphs/hypergraph.py`, `random/{_seed,feature}.py`.
* `metrics/{base,classification,recommender,retrieval}.py` and the
  graph/hypergraph evaluators.
* `data/base.py`, `datapipe/{common,loader,normalize}.py`.
* `nn/convs/**`, `nn/{loss,regularization}.py`,
  `models/graphs/{gcn,graphsage,gin,gat,ngcf,lightgcn,bgnn}.py`,
  `models/hypergraphs/{hgnn,hgnnp,hnhn,unignn,hypergcn,dhcf}.py`.
* `experiments/{base,recommender,vertex_classification}.py`: `experiment`, `run`, and
  `train`, `validate`, `test` of the tasks (optuna and the optimizers as arguments);
  directories and log files of `BaseTask.__init__`.
* `visualization/structure/*` except matplotlib calls, `visualization/feature/*`.

Simplifications (also said in the comments at the definitions):

* exact arithmetic; one feature column at a time; devices ignored
  except in C191;
* torch.sparse operations by their mathematical meaning. In particular the sum
  of a sparse tensor without entries is taken to be zero, and indexing with an
  empty list selects nothing;
* `** -0.5` and `** -1`: the matrix theorems describe non-negative degrees; the nan
  of a negative degree is the subject of C179. Weights are floats;
  the other dtype that Python integers give is the subject of C180 and C181;
* scikit-learn: the counting of `confusion_matrix`, and that
  `euclidean_distances` refuses nan and empty input;
* pickle files are tagged values; the file system of the downloader is a map
  from paths to byte strings;
* strings are byte strings;
* learnable parameters are arbitrary arguments, autograd is not modelled.

Not modelled: the dataset classes under `data/` other than the base class (they
are tables of URLs and hashes), `default_log_formatter` of `utils/logging.py`,
matplotlib itself, CUDA/device handling, floating-point rounding, threads.

## 6. Wrong programs

`seeded/LOG.jsonl` records edits of the model in scratch copies: what was
edited, which claim it breaks, which theorems stop being provable and which
theorems were tightened because of it.

How to read it. Entries written by hand come from a script that replaces each
proof that fails by `Admitted` in the scratch copy and builds again:
`first_lemmas_broken` are the proofs seen to fail, `theorems_failed` adds the
theorems whose proofs use one of them, by the references in the `.glob` files.
Such a theorem is no longer proved; it need not have become false. For a few
early entries, which say so in their note, `theorems_failed` is every theorem
of the files that no longer built.
Entries `autoNNN` are single-token edits made by a script that stops at the first
failing proof: `first_lemmas_broken` is that proof, `theorems_failed` repeats it
if it is a theorem of `MANIFEST.json`, and `dependents_by_name_not_rebuilt` is a
guess from a search for names, cut off at eight. Edits that did not type-check
are left out. Edits that nothing catches are listed with the note `survived`.
