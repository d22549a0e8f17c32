{
 "claims": [
  {
   "property": "C01",
   "status": "proved",
   "theorems": [
    "C01_graph_store"
   ],
   "note": ""
  },
  {
   "property": "C02",
   "status": "proved",
   "theorems": [
    "C02_graph_fresh",
    "C02_queries_pure"
   ],
   "note": ""
  },
  {
   "property": "C03",
   "status": "proved",
   "theorems": [
    "C03_adjacency",
    "C03_handshake",
    "C03_inverse",
    "C03_coordinates"
   ],
   "note": "edge endpoints in add_edges calls are non-negative (negative ones are covered by C12/C79)"
  },
  {
   "property": "C04",
   "status": "proved",
   "theorems": [
    "C04_laplacian",
    "C04_entries",
    "C04_laplacian_psd"
   ],
   "note": "edge endpoints in add_edges calls are non-negative (negative ones are covered by C12/C79)"
  },
  {
   "property": "C05",
   "status": "proved",
   "theorems": [
    "C05_normalised",
    "C05_rw_constants",
    "C05_gcn_energy"
   ],
   "note": "edge endpoints in add_edges calls are non-negative (negative ones are covered by C12/C79)"
  },
  {
   "property": "C06",
   "status": "proved",
   "theorems": [
    "C06_v2v",
    "C06_mean_between"
   ],
   "note": "edge endpoints in add_edges calls are non-negative (negative ones are covered by C12/C79)"
  },
  {
   "property": "C07",
   "status": "proved",
   "theorems": [
    "C07_sum",
    "C07_softmax"
   ],
   "note": "edge endpoints in add_edges calls are non-negative (negative ones are covered by C12/C79)"
  },
  {
   "property": "C08",
   "status": "proved",
   "theorems": [
    "C08_hops"
   ],
   "note": "edge endpoints in add_edges calls are non-negative (negative ones are covered by C12/C79)"
  },
  {
   "property": "C09",
   "status": "proved",
   "theorems": [
    "C09_graph",
    "C09_digraph",
    "C09_bigraph",
    "C09_state_dict"
   ],
   "note": "save is modelled as producing a tagged value and load as reading it back; pickle is trusted."
  },
  {
   "property": "C10",
   "status": "proved",
   "theorems": [
    "C10_graph",
    "C10_digraph",
    "C10_bigraph",
    "C10_copies",
    "C10_hypergraph",
    "C10_hyper_copies"
   ],
   "note": "Object heap with aliasable edge dictionaries; Hypergraph instance in C10_hypergraph when listed."
  },
  {
   "property": "C100",
   "status": "proved",
   "theorems": [
    "C100_uniform_actual",
    "C100_Gnm_actual",
    "C100_custom_actual"
   ],
   "note": "Defect: no feasibility check"
  },
  {
   "property": "C101",
   "status": "proved",
   "theorems": [
    "C101_nothing_relevant_actual",
    "C101_not_binary_refuted"
   ],
   "note": "Defect"
  },
  {
   "property": "C102",
   "status": "proved",
   "theorems": [
    "C102_zero_actual",
    "C102_negative_actual"
   ],
   "note": "Defect"
  },
  {
   "property": "C103",
   "status": "proved",
   "theorems": [
    "C103_ignored_actual",
    "C103_below_k_refuted"
   ],
   "note": "Defect"
  },
  {
   "property": "C104",
   "status": "proved",
   "theorems": [
    "C104_not_first_actual"
   ],
   "note": "Defect: the docstring's own example (0.375) shows it"
  },
  {
   "property": "C105",
   "status": "proved",
   "theorems": [
    "C105_nothing_relevant_actual",
    "C105_mean_actual",
    "C105_below_k_actual"
   ],
   "note": "Defect"
  },
  {
   "property": "C106",
   "status": "proved",
   "theorems": [
    "C106_ratio_actual"
   ],
   "note": "Defect: np is not imported"
  },
  {
   "property": "C107",
   "status": "proved",
   "theorems": [
    "C107_no_data_actual"
   ],
   "note": "Defect"
  },
  {
   "property": "C108",
   "status": "proved",
   "theorems": [
    "C108_live_actual"
   ],
   "note": "Defect"
  },
  {
   "property": "C109",
   "status": "proved",
   "theorems": [
    "C109_shared_slot_actual",
    "C109_floats_actual",
    "C109_collision_refuted"
   ],
   "note": "Defect"
  },
  {
   "property": "C11",
   "status": "proved",
   "theorems": [
    "C11_graph",
    "C11_digraph",
    "C11_bigraph",
    "C11_hypergraph",
    "C11_extremes",
    "C11_bad_ord",
    "C32_bad_ord"
   ],
   "note": "Random draws are an arbitrary sequence."
  },
  {
   "property": "C110",
   "status": "proved",
   "theorems": [
    "C110_batches_actual"
   ],
   "note": "Defect"
  },
  {
   "property": "C111",
   "status": "proved",
   "theorems": [
    "C111_partly_recorded_actual",
    "C111_refused_batch_actual"
   ],
   "note": "Defect"
  },
  {
   "property": "C112",
   "status": "proved",
   "theorems": [
    "C112_curve_actual"
   ],
   "note": "Defect; numpy's vstack/item semantics as modelled in vstack, mean0, item"
  },
  {
   "property": "C113",
   "status": "proved",
   "theorems": [
    "C113_overstated_refuted"
   ],
   "note": "Defect: the docstring's own example shows precision 1.0 at recall 0.6, where the true interpolated value is 0.75"
  },
  {
   "property": "C114",
   "status": "proved",
   "theorems": [
    "C114_outside_cache_actual"
   ],
   "note": "Defect"
  },
  {
   "property": "C115",
   "status": "proved",
   "theorems": [
    "C115_corrupt_actual"
   ],
   "note": "Defect"
  },
  {
   "property": "C116",
   "status": "proved",
   "theorems": [
    "C116_interrupted_actual"
   ],
   "note": "Defect"
  },
  {
   "property": "C117",
   "status": "proved",
   "theorems": [
    "C117_all_items_actual"
   ],
   "note": "Defect"
  },
  {
   "property": "C118",
   "status": "proved",
   "theorems": [
    "C118_no_end_actual"
   ],
   "note": "Defect"
  },
  {
   "property": "C119",
   "status": "proved",
   "theorems": [
    "C119_idle_user_actual"
   ],
   "note": "Defect"
  },
  {
   "property": "C12",
   "status": "proved",
   "theorems": [
    "C12_graph",
    "C12_digraph",
    "C12_bigraph",
    "C12_constructor"
   ],
   "note": "upper bound only; negative vertices are C79."
  },
  {
   "property": "C120",
   "status": "proved",
   "theorems": [
    "C120_table",
    "C120_empty_cell"
   ],
   "note": "ASCII lines; the separator expression is an alternation of single characters, as the default"
  },
  {
   "property": "C121",
   "status": "proved",
   "theorems": [
    "C121_odd_actual",
    "C121_negative_refuted"
   ],
   "note": "Defect"
  },
  {
   "property": "C122",
   "status": "proved",
   "theorems": [
    "C122_unigin_actual",
    "C122_unigin_refuted"
   ],
   "note": "Defect"
  },
  {
   "property": "C123",
   "status": "proved",
   "theorems": [
    "C123_stale_graph_actual",
    "C123_first_fails",
    "C123_stale_graph_refuted"
   ],
   "note": "Defect"
  },
  {
   "property": "C124",
   "status": "proved",
   "theorems": [
    "C124_minimize_actual",
    "C124_no_score_actual",
    "C124_no_structure_actual"
   ],
   "note": "Defect"
  },
  {
   "property": "C125",
   "status": "proved",
   "theorems": [
    "C125_vertex_ignored_actual"
   ],
   "note": "Defect"
  },
  {
   "property": "C126",
   "status": "proved",
   "theorems": [
    "C126_one_edge_actual"
   ],
   "note": "Defect"
  },
  {
   "property": "C127",
   "status": "proved",
   "theorems": [
    "C127_lightgcn"
   ],
   "note": ""
  },
  {
   "property": "C128",
   "status": "proved",
   "theorems": [
    "C128_sum_mean",
    "C128_max",
    "C128_refused"
   ],
   "note": ""
  },
  {
   "property": "C129",
   "status": "proved",
   "theorems": [
    "C129_best_trial",
    "C129_files",
    "C129_no_result",
    "C129_failure_leaves"
   ],
   "note": "optuna's best_trial is the first complete trial with the greatest value; the file system keeps what is written"
  },
  {
   "property": "C13",
   "status": "proved",
   "theorems": [
    "C13_graph",
    "C13_digraph",
    "C13_bigraph",
    "C13_order_free",
    "C13_sum_value"
   ],
   "note": ""
  },
  {
   "property": "C130",
   "status": "proved",
   "theorems": [
    "C130_single_vertex_actual"
   ],
   "note": "Defect"
  },
  {
   "property": "C131",
   "status": "proved",
   "theorems": [
    "C131_outlines",
    "C131_nested"
   ],
   "note": "vertices 0..n-1"
  },
  {
   "property": "C132",
   "status": "proved",
   "theorems": [
    "C132_line_edge",
    "C132_drawing"
   ],
   "note": ""
  },
  {
   "property": "C133",
   "status": "proved",
   "theorems": [
    "C133_short_labels_actual",
    "C133_ignored_actual"
   ],
   "note": "Defect; e_style 'line'"
  },
  {
   "property": "C134",
   "status": "proved",
   "theorems": [
    "C134_into_ball",
    "C134_proj",
    "C134_inverse"
   ],
   "note": "exact arithmetic"
  },
  {
   "property": "C135",
   "status": "proved",
   "theorems": [
    "C135_prestage_actual",
    "C135_points",
    "C135_constant_column_actual",
    "C135_rejects"
   ],
   "note": "exact arithmetic"
  },
  {
   "property": "C136",
   "status": "proved",
   "theorems": [
    "C136_plot"
   ],
   "note": ""
  },
  {
   "property": "C137",
   "status": "proved",
   "theorems": [
    "C137_shared_weights_actual",
    "C137_stale_W_v_actual"
   ],
   "note": "Defect: hypergraph.py:45 stores the argument, 508-512 returns it"
  },
  {
   "property": "C138",
   "status": "proved",
   "theorems": [
    "C138_caller_list_actual",
    "C138_caller_list_refuted",
    "C138_reuse"
   ],
   "note": "Defect: base.py:502-503 writes into the argument"
  },
  {
   "property": "C139",
   "status": "proved",
   "theorems": [
    "C139_gcn",
    "C139_graphsage",
    "C139_gin",
    "C139_gat"
   ],
   "note": "GAT excludes graphs with exactly one directed edge, where the code fails (C126)"
  },
  {
   "property": "C14",
   "status": "proved",
   "theorems": [
    "C14_digraph_store",
    "C14_digraph_saved"
   ],
   "note": ""
  },
  {
   "property": "C140",
   "status": "proved",
   "theorems": [
    "C140_hgnn",
    "C140_unigin",
    "C140_hnhn",
    "C140_unigcn",
    "C140_unigat"
   ],
   "note": "UniGAT excludes exactly one incidence (C126); UniGCN with a zero-weight hyperedge gives NaN"
  },
  {
   "property": "C141",
   "status": "proved",
   "theorems": [
    "C141_ngcf",
    "C141_dhcf",
    "C141_normalised"
   ],
   "note": "evaluation mode"
  },
  {
   "property": "C142",
   "status": "proved",
   "theorems": [
    "C142_bgnn",
    "C142_bounded"
   ],
   "note": "formula for BGNN_Adv; bound for both"
  },
  {
   "property": "C143",
   "status": "proved",
   "theorems": [
    "C143_Xu_ignored_actual",
    "C143_last_layer_ignored_actual"
   ],
   "note": "Defect: bgnn.py:41-50, 190-199: layer 0 overwrites last_X_u before it is read, and only last_X_u is returned"
  },
  {
   "property": "C144",
   "status": "proved",
   "theorems": [
    "C144_cascade"
   ],
   "note": "training is an oracle; for BGNN_MLP the decoders are left in evaluation mode by the code"
  },
  {
   "property": "C145",
   "status": "proved",
   "theorems": [
    "C145_f1",
    "C145_reorder",
    "C145_rename",
    "C145_exchange"
   ],
   "note": "sklearn's f1_score is modelled for the three documented averages and at least one sample"
  },
  {
   "property": "C146",
   "status": "proved",
   "theorems": [
    "C146_features",
    "C146_refused",
    "C146_noiseless"
   ],
   "note": ""
  },
  {
   "property": "C147",
   "status": "proved",
   "theorems": [
    "C147_reproducible",
    "C147_seed"
   ],
   "note": "generators are arbitrary deterministic machines"
  },
  {
   "property": "C148",
   "status": "proved",
   "theorems": [
    "C148_half_set_actual"
   ],
   "note": "Defect: _seed.py:30-33: the seed is stored and python's generator seeded before numpy checks the range"
  },
  {
   "property": "C149",
   "status": "proved",
   "theorems": [
    "C149_copied",
    "C149_install"
   ],
   "note": "a path that is a directory or not writable is not modelled"
  },
  {
   "property": "C15",
   "status": "proved",
   "theorems": [
    "C15_digraph_fresh",
    "C15_queries_pure"
   ],
   "note": ""
  },
  {
   "property": "C150",
   "status": "proved",
   "theorems": [
    "C150_add_source"
   ],
   "note": "prompted by a wrong program (vertex number not compared) that no theorem noticed"
  },
  {
   "property": "C151",
   "status": "proved",
   "theorems": [
    "C151_shape",
    "C151_ratio",
    "C151_method",
    "C151_one_sample",
    "C151_accepted"
   ],
   "note": "prompted by wrong programs (another exception, no check of the number of dimensions) that no theorem noticed"
  },
  {
   "property": "C152",
   "status": "proved",
   "theorems": [
    "C152_graph",
    "C152_digraph",
    "C152_bigraph",
    "C152_hypergraph"
   ],
   "note": "prompted by a wrong program (Python index check) that no theorem noticed; v >= n in a hypergraph is C30_out_of_range"
  },
  {
   "property": "C153",
   "status": "proved",
   "theorems": [
    "C153_negative_hyperedge_actual",
    "C153_negative_hyperedge_refuted"
   ],
   "note": "Defect: stated as the code behaves"
  },
  {
   "property": "C154",
   "status": "proved",
   "theorems": [
    "C154_unknown_vertex_actual",
    "C154_unknown_vertex_accepted",
    "C154_unknown_vertex_refuted",
    "C154_draw_actual"
   ],
   "note": "Defect: stated as the code behaves"
  },
  {
   "property": "C155",
   "status": "proved",
   "theorems": [
    "C155_repeated_vertex_actual",
    "C155_repeated_vertex_refuted"
   ],
   "note": "Defect: stated as the code behaves"
  },
  {
   "property": "C156",
   "status": "proved",
   "theorems": [
    "C156_ranking",
    "C156_classification",
    "C156_text",
    "C156_method",
    "C156_points"
   ],
   "note": "prompted by wrong programs (another exception) that no theorem noticed"
  },
  {
   "property": "C157",
   "status": "proved",
   "theorems": [
    "C157_step",
    "C157_step_bipartite",
    "C157_balance"
   ],
   "note": "exact arithmetic; prompted by wrong programs (centre of an edge, side of a vertex) that no theorem noticed"
  },
  {
   "property": "C158",
   "status": "proved",
   "theorems": [
    "C158_style",
    "C158_sizes",
    "C158_colours"
   ],
   "note": "matplotlib is not modelled: a drawing is the list of what is added to the axes"
  },
  {
   "property": "C159",
   "status": "proved",
   "theorems": [
    "C159_lines",
    "C159_short"
   ],
   "note": "exact arithmetic"
  },
  {
   "property": "C16",
   "status": "proved",
   "theorems": [
    "C16_matrices",
    "C16_coordinates"
   ],
   "note": "edge endpoints in add_edges calls are non-negative (negative ones are covered by C12/C79)"
  },
  {
   "property": "C160",
   "status": "proved",
   "theorems": [
    "C160_hypergraph",
    "C160_graph"
   ],
   "note": "stated for runs that return; C131 says what an outline is"
  },
  {
   "property": "C161",
   "status": "proved",
   "theorems": [
    "C161_bigraph"
   ],
   "note": "exact arithmetic; which vertices the layout pulls together is C73"
  },
  {
   "property": "C162",
   "status": "proved",
   "theorems": [
    "C162_bigraph_actual",
    "C162_font_actual"
   ],
   "note": "Defect: stated as the code behaves"
  },
  {
   "property": "C163",
   "status": "proved",
   "theorems": [
    "C163_layout",
    "C163_layout_bipartite"
   ],
   "note": "exact arithmetic; the examples C163_two and C163_two_bipartite compute whole layouts"
  },
  {
   "property": "C164",
   "status": "proved",
   "theorems": [
    "C164_graph",
    "C164_digraph",
    "C164_bigraph",
    "C164_hypergraph",
    "C164_extremes"
   ],
   "note": "the draws are arguments; their distribution is not modelled; the weighted mean (C07, C36) and softmax (C166) are not of this form"
  },
  {
   "property": "C165",
   "status": "proved",
   "theorems": [
    "C165_smoothing"
   ],
   "note": "one feature column; exact arithmetic"
  },
  {
   "property": "C166",
   "status": "proved",
   "theorems": [
    "C166_graph_actual",
    "C166_digraph_actual",
    "C166_bigraph_actual",
    "C166_hypergraph_actual",
    "C166_single_actual",
    "C166_refuted"
   ],
   "note": "Defect: stated as the code behaves; Graph.v2v with softmax works with user weights only (C07)"
  },
  {
   "property": "C167",
   "status": "proved",
   "theorems": [
    "C167_smoothing_actual"
   ],
   "note": "Defect: stated as the code behaves; the docstring gives the same formula and calls lamb the strength of smoothing"
  },
  {
   "property": "C168",
   "status": "proved",
   "theorems": [
    "C168_retrieval",
    "C168_recommender",
    "C168_classification"
   ],
   "note": "k and n_points integers, ratio a float, method and average texts; sklearn's f1_score is an argument"
  },
  {
   "property": "C169",
   "status": "proved",
   "theorems": [
    "C169_layout_actual",
    "C169_draw_actual",
    "C169_groups_actual"
   ],
   "note": "Defect: repeated hyperedges make draw_hypergraph fail. Exact arithmetic"
  },
  {
   "property": "C17",
   "status": "proved",
   "theorems": [
    "C17_reverse"
   ],
   "note": "edge endpoints in add_edges calls are non-negative (negative ones are covered by C12/C79); reversal while nothing is cached (otherwise C77)"
  },
  {
   "property": "C170",
   "status": "proved",
   "theorems": [
    "C170_meet",
    "C170_three_actual"
   ],
   "note": "components of the draws not 0; exact arithmetic; no pushes between edges (graphs, digraphs)"
  },
  {
   "property": "C171",
   "status": "proved",
   "theorems": [
    "C171_R_actual"
   ],
   "note": "Defect: documented properties that always raise."
  },
  {
   "property": "C172",
   "status": "proved",
   "theorems": [
    "C172_selfloops_actual",
    "C172_clone_actual"
   ],
   "note": "Defect: methods of simple graphs reach the bipartite class through inheritance."
  },
  {
   "property": "C173",
   "status": "proved",
   "theorems": [
    "C173_unigcn_actual"
   ],
   "note": "Defect: 0/0 is not covered by the replacement of infinite values."
  },
  {
   "property": "C174",
   "status": "proved",
   "theorems": [
    "C174_draw_actual"
   ],
   "note": "Defect."
  },
  {
   "property": "C175",
   "status": "proved",
   "theorems": [
    "C175_digraph",
    "C175_digraph_histories",
    "C175_bigraph",
    "C175_bigraph_histories"
   ],
   "note": ""
  },
  {
   "property": "C176",
   "status": "proved",
   "theorems": [
    "C176_constructor"
   ],
   "note": "An unknown merge operator is noticed only when two hyperedges have to be merged."
  },
  {
   "property": "C177",
   "status": "proved",
   "theorems": [
    "C177_default_actual",
    "C177_default_refuted"
   ],
   "note": "Defect: the default contradicts the documentation. The statement describes the actual behaviour."
  },
  {
   "property": "C178",
   "status": "proved",
   "theorems": [
    "C178_too_few",
    "C178_too_many_actual"
   ],
   "note": ""
  },
  {
   "property": "C179",
   "status": "proved",
   "theorems": [
    "C179_negative_degree_actual",
    "C179_hypergraph_actual"
   ],
   "note": "Defect: the getters replace inf (degree 0) by 0 but leave the nan of negative degrees."
  },
  {
   "property": "C18",
   "status": "proved",
   "theorems": [
    "C18_neighbour_duality"
   ],
   "note": "edge endpoints in add_edges calls are non-negative (negative ones are covered by C12/C79)"
  },
  {
   "property": "C180",
   "status": "proved",
   "theorems": [
    "C180_graph_actual",
    "C180_digraph_actual",
    "C180_bigraph_actual"
   ],
   "note": "Defect: A takes the dtype int64 from integer weights; torch raises on int64 ** -1 and on int64-by-float products. The dtype rules of torch are part of the model (ModelMore.no_int)."
  },
  {
   "property": "C181",
   "status": "proved",
   "theorems": [
    "C181_hypergraph_actual"
   ],
   "note": "Defect: W_e takes the dtype int64 from integer weights and torch raises on the product with float matrices. The dtype rules of torch are part of the model (ModelMore.no_int)."
  },
  {
   "property": "C182",
   "status": "proved",
   "theorems": [
    "C182_outlines",
    "C182_refused",
    "C182_draw"
   ],
   "note": "Circles with the same centre and the same radius, for which the code goes on with nan, are neither in the first nor in the last case."
  },
  {
   "property": "C183",
   "status": "proved",
   "theorems": [
    "C183_hub_actual",
    "C183_star_actual"
   ],
   "note": "Defect: the circles around a vertex grow with every edge drawn (hull_layout) without limit. Hypothesis: the layout has finite coordinates (otherwise C72); the case with two vertices of unequal size shows a layout that meets it."
  },
  {
   "property": "C184",
   "status": "proved",
   "theorems": [
    "C184_graph",
    "C184_gin",
    "C184_gat",
    "C184_hypergraph",
    "C184_unigin",
    "C184_hnhn",
    "C184_unigcn",
    "C184_unigat",
    "C184_norm"
   ],
   "note": "UniGCN with positive hyperedge weights. C67 shows that renaming the vertices in the constructor call and in all later calls gives such structures. Attention dropout is in evaluation mode."
  },
  {
   "property": "C185",
   "status": "proved",
   "theorems": [
    "C185_lightgcn",
    "C185_ngcf",
    "C185_dhcf"
   ],
   "note": "Message dropout of NGCF and DHCF is in evaluation mode, as in C141. C175 shows that renaming in all calls gives such bipartite graphs."
  },
  {
   "property": "C186",
   "status": "proved",
   "theorems": [
    "C186_reported"
   ],
   "note": ""
  },
  {
   "property": "C187",
   "status": "proved",
   "theorems": [
    "C187_unseen_first",
    "C187_precision"
   ],
   "note": ""
  },
  {
   "property": "C188",
   "status": "proved",
   "theorems": [
    "C188_actual"
   ],
   "note": "Defect: validation and test use the same loader."
  },
  {
   "property": "C189",
   "status": "proved",
   "theorems": [
    "C189_blind",
    "C189_test"
   ],
   "note": ""
  },
  {
   "property": "C19",
   "status": "proved",
   "theorems": [
    "C19_v2v",
    "C19_reverse_exchanges",
    "C19_softmax",
    "C19_custom_sum"
   ],
   "note": "edge endpoints in add_edges calls are non-negative (negative ones are covered by C12/C79)"
  },
  {
   "property": "C190",
   "status": "proved",
   "theorems": [
    "C190_reported",
    "C190_accuracy"
   ],
   "note": ""
  },
  {
   "property": "C191",
   "status": "proved",
   "theorems": [
    "C191_actual"
   ],
   "note": "Defect: the mask stays on the CPU."
  },
  {
   "property": "C192",
   "status": "proved",
   "theorems": [
    "C192_classification",
    "C192_recommender"
   ],
   "note": ""
  },
  {
   "property": "C193",
   "status": "proved",
   "theorems": [
    "C193_overwrite",
    "C193_keeps",
    "C193_possible"
   ],
   "note": ""
  },
  {
   "property": "C194",
   "status": "proved",
   "theorems": [
    "C194_missing"
   ],
   "note": ""
  },
  {
   "property": "C195",
   "status": "proved",
   "theorems": [
    "C195_everything_actual",
    "C195_absolute_actual"
   ],
   "note": "Defect: no check of the study name."
  },
  {
   "property": "C196",
   "status": "proved",
   "theorems": [
    "C196_shared_actual",
    "C196_repeated_actual"
   ],
   "note": "Defect: handlers accumulate on the logger."
  },
  {
   "property": "C197",
   "status": "proved",
   "theorems": [
    "C197_actual"
   ],
   "note": "Defect: the format .3f is applied to a numpy matrix."
  },
  {
   "property": "C198",
   "status": "proved",
   "theorems": [
    "C198_refused_actual"
   ],
   "note": "Defect: k = 1 with the centre and k = N without it fail."
  },
  {
   "property": "C199",
   "status": "proved",
   "theorems": [
    "C199_first_dropped_actual",
    "C199_self_loop_actual"
   ],
   "note": "Defect: the code assumes that the nearest listed point is the vertex itself."
  },
  {
   "property": "C20",
   "status": "proved",
   "theorems": [
    "C20_knn"
   ],
   "note": "the k-d tree is an oracle assumed to return the nearest points"
  },
  {
   "property": "C200",
   "status": "proved",
   "theorems": [
    "C200_num_actual",
    "C200_ratio_actual"
   ],
   "note": "Defect: the arguments are not checked."
  },
  {
   "property": "C21",
   "status": "proved",
   "theorems": [
    "C21_bigraph_store"
   ],
   "note": "every history of construct/add/remove/clear/queries"
  },
  {
   "property": "C22",
   "status": "proved",
   "theorems": [
    "C22_bigraph_fresh",
    "C22_queries_pure"
   ],
   "note": "cache-free answer and answer of a freshly built graph"
  },
  {
   "property": "C23",
   "status": "proved",
   "theorems": [
    "C23_matrices",
    "C23_neighbours",
    "C23_coordinates"
   ],
   "note": "for edges with non-negative indices (negative ones: C79)"
  },
  {
   "property": "C24",
   "status": "proved",
   "theorems": [
    "C24_switch"
   ],
   "note": "graph value returned; original is an immutable value in the model, aliasing is covered by C10"
  },
  {
   "property": "C25",
   "status": "proved",
   "theorems": [
    "C25_pass",
    "C25_mean_between",
    "C25_switch_exchanges",
    "C25_softmax",
    "C25_custom_sum"
   ],
   "note": ""
  },
  {
   "property": "C26",
   "status": "proved",
   "theorems": [
    "C26_gcn_matrix",
    "C26_gcn_energy"
   ],
   "note": ""
  },
  {
   "property": "C27",
   "status": "proved",
   "theorems": [
    "C27_same_edge",
    "C27_store",
    "C27_global",
    "C27_reject"
   ],
   "note": "Histories whose merge operators are mean/sum/max; the others are C84."
  },
  {
   "property": "C28",
   "status": "proved",
   "theorems": [
    "C28_fresh",
    "C28_queries_pure"
   ],
   "note": "Documented merge operators; exception C84."
  },
  {
   "property": "C29",
   "status": "proved",
   "theorems": [
    "C29_incidence",
    "C29_degrees",
    "C29_vertex_weights",
    "C29_coordinates"
   ],
   "note": "Hyperedges without repeated vertices, inside [0, num_v)."
  },
  {
   "property": "C30",
   "status": "proved",
   "theorems": [
    "C30_neighbours",
    "C30_out_of_range"
   ],
   "note": ""
  },
  {
   "property": "C31",
   "status": "proved",
   "theorems": [
    "C31_isolated",
    "C31_side_by_side"
   ],
   "note": ""
  },
  {
   "property": "C32",
   "status": "proved",
   "theorems": [
    "C32_one_group",
    "C32_bad_ord"
   ],
   "note": "Vertex weights excluded: C86."
  },
  {
   "property": "C33",
   "status": "proved",
   "theorems": [
    "C33_subgraph",
    "C33_reject"
   ],
   "note": "Collisions: C88."
  },
  {
   "property": "C34",
   "status": "proved",
   "theorems": [
    "C34_formulas",
    "C34_energy",
    "C34_constants"
   ],
   "note": ""
  },
  {
   "property": "C35",
   "status": "proved",
   "theorems": [
    "C35_v2e",
    "C35_e2v",
    "C35_v2v_stages",
    "C35_v2v_plain",
    "C35_bounds",
    "C35_bad_aggregation"
   ],
   "note": ""
  },
  {
   "property": "C36",
   "status": "proved",
   "theorems": [
    "C36_weighted_sum",
    "C36_weighted_sum_back",
    "C36_softmax",
    "C36_weighted_mean_actual",
    "C36_weighted_mean_refuted"
   ],
   "note": "Defect: weighted mean multiplies by the total weight."
  },
  {
   "property": "C37",
   "status": "proved",
   "theorems": [
    "C37_clone",
    "C37_reload",
    "C37_files"
   ],
   "note": "Vertex weights: C86, C89."
  },
  {
   "property": "C38",
   "status": "proved",
   "theorems": [
    "C38_from_graph",
    "C38_kNN",
    "C38_kNN_reject",
    "C38_add_from"
   ],
   "note": "kNN distances and torch.topk enter as an oracle returning a nearest set."
  },
  {
   "property": "C39",
   "status": "proved",
   "theorems": [
    "C39_kHop",
    "C39_reject"
   ],
   "note": ""
  },
  {
   "property": "C40",
   "status": "proved",
   "theorems": [
    "C40_to_bigraph",
    "C40_degrees",
    "C40_reject",
    "C40_from_bigraph",
    "C40_round_trip"
   ],
   "note": ""
  },
  {
   "property": "C41",
   "status": "proved",
   "theorems": [
    "C41_star",
    "C41_clique"
   ],
   "note": "Note that weighted=True has no effect on the star expansion."
  },
  {
   "property": "C42",
   "status": "proved",
   "theorems": [
    "C42_hypergcn",
    "C42_reject"
   ],
   "note": "torch.argmax/argmin on the random projection enter as an oracle; exact reals."
  },
  {
   "property": "C43",
   "status": "proved",
   "theorems": [
    "C43_adj_dict",
    "C43_round_trip",
    "C43_adj_round_trip",
    "C43_edges"
   ],
   "note": ""
  },
  {
   "property": "C44",
   "status": "proved",
   "theorems": [
    "C44_edges",
    "C44_edges_bipartite",
    "C44_adj",
    "C44_adj_bipartite",
    "C44_bijection"
   ],
   "note": "Python's str is an argument; strings are byte strings ordered by code."
  },
  {
   "property": "C45",
   "status": "proved",
   "theorems": [
    "C45_by_num",
    "C45_by_ratio",
    "C45_by_exact_ratio",
    "C45_reject"
   ],
   "note": "C45_by_ratio is for any arithmetic (int(n*r) an arbitrary non-negative function), C45_by_exact_ratio for exact rationals."
  },
  {
   "property": "C46",
   "status": "proved",
   "theorems": [
    "C46_by_num",
    "C46_by_ratio"
   ],
   "note": ""
  },
  {
   "property": "C47",
   "status": "proved",
   "theorems": [
    "C47_dropout",
    "C47_zero",
    "C47_reject"
   ],
   "note": ""
  },
  {
   "property": "C48",
   "status": "proved",
   "theorems": [
    "C48_binomial",
    "C48_rounding",
    "C48_rounding_ties"
   ],
   "note": "Exact reals: rounding and overflow of float log/exp are not modelled."
  },
  {
   "property": "C49",
   "status": "proved",
   "theorems": [
    "C49_graph",
    "C49_graph_ends",
    "C49_graph_possible",
    "C49_digraph",
    "C49_digraph_ends",
    "C49_digraph_possible",
    "C49_bigraph",
    "C49_bigraph_ends",
    "C49_bigraph_possible",
    "C49_rejects"
   ],
   "note": "loops with explicit fuel; None = still running"
  },
  {
   "property": "C50",
   "status": "proved",
   "theorems": [
    "C50_graph",
    "C50_digraph",
    "C50_bigraph",
    "C50_extremes",
    "C50_rejects",
    "C50_bigraph_rejects"
   ],
   "note": "draws and prob are rationals"
  },
  {
   "property": "C51",
   "status": "proved",
   "theorems": [
    "C51_graph",
    "C51_graph_reachable",
    "C51_digraph",
    "C51_digraph_reachable",
    "C51_rejects"
   ],
   "note": "logarithms in exact real arithmetic; bigraph_Gnp_fast is commented out in the code"
  },
  {
   "property": "C52",
   "status": "proved",
   "theorems": [
    "C52_uniform_Gnp",
    "C52_uniform_Gnm",
    "C52_uniform_Gnm_ends",
    "C52_uniform_Gnm_possible",
    "C52_uniform_Gnm_rejects",
    "C52_uniform_Gnm_too_large",
    "C52_Gnm",
    "C52_Gnm_ends",
    "C52_weights",
    "C52_custom",
    "C52_uniform_Gnp_rejects",
    "C52_Gnm_rejects"
   ],
   "note": "random.choices is an oracle over the degrees; that it draws with the given weights is trusted"
  },
  {
   "property": "C53",
   "status": "proved",
   "theorems": [
    "C53_one_dim",
    "C53_values",
    "C53_recall_mono",
    "C53_scores"
   ],
   "note": "exact real arithmetic; the argsort is any order that sorts the scores"
  },
  {
   "property": "C54",
   "status": "proved",
   "theorems": [
    "C54_ndcg"
   ],
   "note": "exact real arithmetic"
  },
  {
   "property": "C55",
   "status": "proved",
   "theorems": [
    "C55_legacy",
    "C55_pascal",
    "C55_bounds",
    "C55_methods",
    "C55_map"
   ],
   "note": "exact real arithmetic"
  },
  {
   "property": "C56",
   "status": "proved",
   "theorems": [
    "C56_rr",
    "C56_mrr"
   ],
   "note": "exact real arithmetic"
  },
  {
   "property": "C57",
   "status": "proved",
   "theorems": [
    "C57_curve",
    "C57_batch"
   ],
   "note": "exact real arithmetic"
  },
  {
   "property": "C58",
   "status": "proved",
   "theorems": [
    "C58_validate",
    "C58_test",
    "C58_partition"
   ],
   "note": "exact arithmetic; metrics with one number per sample, for C58_test also curves"
  },
  {
   "property": "C59",
   "status": "proved",
   "theorems": [
    "C59_distinct",
    "C59_slots",
    "C59_test"
   ],
   "note": "float values are rationals printed with round-half-even to four decimals; markers of lists and other objects are modelled but not claimed distinct"
  },
  {
   "property": "C60",
   "status": "proved",
   "theorems": [
    "C60_accuracy",
    "C60_confusion",
    "C60_reorder"
   ],
   "note": "exact real arithmetic; the counting of sklearn's confusion_matrix is modelled from its documentation; f1_score is sklearn's and not modelled"
  },
  {
   "property": "C61",
   "status": "proved",
   "theorems": [
    "C61_negative",
    "C61_terminates",
    "C61_test",
    "C61_new",
    "C61_range"
   ],
   "note": "draws in range; items of test lists in range"
  },
  {
   "property": "C62",
   "status": "proved",
   "theorems": [
    "C62_once",
    "C62_stable",
    "C62_piped",
    "C62_only_requested",
    "C62_reload",
    "C62_compose"
   ],
   "note": "the loaders and fetch_files are arbitrary functions of the call number and arguments"
  },
  {
   "property": "C63",
   "status": "proved",
   "theorems": [
    "C63_verified",
    "C63_local",
    "C63_recovers"
   ],
   "note": "the server is an arbitrary function of the request number and url; the digest is an arbitrary function of the bytes; file-system errors are not modelled"
  },
  {
   "property": "C64",
   "status": "proved",
   "theorems": [
    "C64_min_max",
    "C64_refused",
    "C64_norm",
    "C64_norms"
   ],
   "note": "exact real arithmetic"
  },
  {
   "property": "C65",
   "status": "proved",
   "theorems": [
    "C65_activations",
    "C65_ranking"
   ],
   "note": "exact real arithmetic (torch's log(sigmoid) underflows for large differences)"
  },
  {
   "property": "C66",
   "status": "proved",
   "theorems": [
    "C66_even"
   ],
   "note": "exact real arithmetic"
  },
  {
   "property": "C67",
   "status": "proved",
   "theorems": [
    "C67_graph",
    "C67_graph_histories",
    "C67_hypergraph",
    "C67_hypergraph_histories"
   ],
   "note": "v2v with its default weights and sum or mean; hypergraphs with duplicate-free in-range hyperedges"
  },
  {
   "property": "C68",
   "status": "proved",
   "theorems": [
    "C68_layer",
    "C68_slow"
   ],
   "note": ""
  },
  {
   "property": "C69",
   "status": "proved",
   "theorems": [
    "C69_gcn",
    "C69_gin",
    "C69_graphsage",
    "C69_hgnn",
    "C69_dhcf",
    "C69_hnhn",
    "C69_unisage",
    "C69_gat",
    "C69_unigcn"
   ],
   "note": "activation, batch norm and dropout are arbitrary functions of the whole output; attention dropout is the identity (evaluation mode)"
  },
  {
   "property": "C70",
   "status": "proved",
   "theorems": [
    "C70_best_epoch",
    "C70_pruned"
   ],
   "note": "training and validation are arbitrary sequences of models and scores"
  },
  {
   "property": "C71",
   "status": "proved",
   "theorems": [
    "C71_polar_angle",
    "C71_tangent",
    "C71_inside_actual"
   ],
   "note": "circles at the same place are left out"
  },
  {
   "property": "C72",
   "status": "proved",
   "theorems": [
    "C72_force_layout",
    "C72_bipartite_layout",
    "C72_completes"
   ],
   "note": ""
  },
  {
   "property": "C73",
   "status": "proved",
   "theorems": [
    "C73_layout_edges_actual",
    "C73_not_attracted_actual"
   ],
   "note": "Defect: layout.py:60 gets the edges without the offset num_u"
  },
  {
   "property": "C74",
   "status": "proved",
   "theorems": [
    "C74_graph",
    "C74_digraph",
    "C74_bigraph",
    "C74_rejects"
   ],
   "note": ""
  },
  {
   "property": "C75",
   "status": "proved",
   "theorems": [
    "C75_weighted_mean_actual",
    "C75_weighted_mean_refuted"
   ],
   "note": "defect: the documented mean is refuted"
  },
  {
   "property": "C76",
   "status": "proved",
   "theorems": [
    "C76_softmax_default_refuted"
   ],
   "note": "defect"
  },
  {
   "property": "C77",
   "status": "proved",
   "theorems": [
    "C77_reverse_stale_actual",
    "C77_reverse_stale_refuted"
   ],
   "note": "defect"
  },
  {
   "property": "C78",
   "status": "proved",
   "theorems": [
    "C78_weighted_mean_actual",
    "C78_weighted_mean_refuted"
   ],
   "note": "defect"
  },
  {
   "property": "C79",
   "status": "proved",
   "theorems": [
    "C79_negative_accepted_actual"
   ],
   "note": "defect: documented range check does not reject negative vertices."
  },
  {
   "property": "C80",
   "status": "proved",
   "theorems": [
    "C80_weighted_mean_actual",
    "C80_weighted_mean_refuted"
   ],
   "note": "defect: the documented weighted mean is refuted"
  },
  {
   "property": "C81",
   "status": "proved",
   "theorems": [
    "C81_short_weights_actual"
   ],
   "note": "defect: zip truncates silently."
  },
  {
   "property": "C82",
   "status": "proved",
   "theorems": [
    "C82_mean_actual",
    "C82_mean_refuted"
   ],
   "note": "defect: running average."
  },
  {
   "property": "C83",
   "status": "proved",
   "theorems": [
    "C83_state_dict_live_refuted",
    "C83_hyper_state_dict_live_refuted"
   ],
   "note": "defect/hazard: returned dict is shared."
  },
  {
   "property": "C84",
   "status": "proved",
   "theorems": [
    "C84_stale_after_failed_add_actual",
    "C84_stale_after_failed_add_refuted"
   ],
   "note": "Defect."
  },
  {
   "property": "C85",
   "status": "proved",
   "theorems": [
    "C85_no_groups_actual",
    "C85_no_groups_refuted"
   ],
   "note": "Defect."
  },
  {
   "property": "C86",
   "status": "proved",
   "theorems": [
    "C86_vertex_weights_lost_actual",
    "C86_vertex_weights_lost_refuted"
   ],
   "note": "Defect."
  },
  {
   "property": "C87",
   "status": "proved",
   "theorems": [
    "C87_clear_loses_weights_actual",
    "C87_clear_loses_weights_refuted"
   ],
   "note": "Defect."
  },
  {
   "property": "C88",
   "status": "proved",
   "theorems": [
    "C88_collision_last_wins_actual",
    "C88_collision_last_wins_refuted"
   ],
   "note": "Defect."
  },
  {
   "property": "C89",
   "status": "proved",
   "theorems": [
    "C89_clone_stale_Wv_actual",
    "C89_clone_stale_Wv_refuted"
   ],
   "note": "Defect."
  },
  {
   "property": "C90",
   "status": "proved",
   "theorems": [
    "C90_knn_merges_actual",
    "C90_knn_merges_refuted"
   ],
   "note": "Defect: contradicts 'one hyperedge per vertex'."
  },
  {
   "property": "C91",
   "status": "proved",
   "theorems": [
    "C91_bigraph_merges_actual",
    "C91_bigraph_merges_refuted"
   ],
   "note": "Defect: from_bigraph is not injective."
  },
  {
   "property": "C92",
   "status": "proved",
   "theorems": [
    "C92_miu_actual"
   ],
   "note": "Defect: documented parameter ignored."
  },
  {
   "property": "C93",
   "status": "proved",
   "theorems": [
    "C93_mediator_actual",
    "C93_pairs_lost_actual"
   ],
   "note": "Defect: differs from the HyperGCN paper."
  },
  {
   "property": "C94",
   "status": "proved",
   "theorems": [
    "C94_isolated_actual",
    "C94_isolated_refuted"
   ],
   "note": "Defect."
  },
  {
   "property": "C95",
   "status": "proved",
   "theorems": [
    "C95_string_order_actual",
    "C95_renumbered_refuted"
   ],
   "note": "Defect: surprising order."
  },
  {
   "property": "C96",
   "status": "proved",
   "theorems": [
    "C96_gaps_actual",
    "C96_gaps_refuted"
   ],
   "note": "Defect."
  },
  {
   "property": "C97",
   "status": "proved",
   "theorems": [
    "C97_out_of_range_actual",
    "C97_out_of_range_refuted"
   ],
   "note": "Defect."
  },
  {
   "property": "C98",
   "status": "proved",
   "theorems": [
    "C98_graph_actual",
    "C98_digraph_actual"
   ],
   "note": "Defect: strict bound"
  },
  {
   "property": "C99",
   "status": "proved",
   "theorems": [
    "C99_endpoints_actual"
   ],
   "note": "Defect: endpoints raise"
  }
 ]
}