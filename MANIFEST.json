{
 "claims": [
  {
   "property": "C01",
   "status": "proved",
   "theorems": [
    "C01_knn_best_k"
   ],
   "note": "At IEEE binary64, any distance function."
  },
  {
   "property": "C02",
   "status": "proved",
   "theorems": [
    "C02_prefab_searches",
    "C02_prefab_best"
   ],
   "note": ""
  },
  {
   "property": "C03",
   "status": "partial",
   "theorems": [
    "C03_cosine_search_complete_refuted",
    "C03_cosine_search_complete_partial"
   ],
   "note": "REFUTED for zero vectors (NaN similarity is dropped). Proved: exactly the vectors with a similarity above -MaxFloat64 are returned."
  },
  {
   "property": "C04",
   "status": "partial",
   "theorems": [
    "C04_euclidean_refuted",
    "C04_euclidean_partial",
    "C04_euclidean_upper_partial"
   ],
   "note": "REFUTED: the function is the Manhattan distance. Proved over the reals: sum of absolute differences, at least the Euclidean distance."
  },
  {
   "property": "C05",
   "status": "proved",
   "theorems": [
    "C05_cosine_measure",
    "C05_distance_metric"
   ],
   "note": "Over the standard library's reals."
  },
  {
   "property": "C06",
   "status": "proved",
   "theorems": [
    "C06_error_iff_dimension_mismatch"
   ],
   "note": ""
  },
  {
   "property": "C07",
   "status": "proved",
   "theorems": [
    "C07_vec_mean",
    "C07_vec_mean_fails_iff"
   ],
   "note": ""
  },
  {
   "property": "C08",
   "status": "proved",
   "theorems": [
    "C08_dimensions",
    "C08_coordinates",
    "C08_inverses",
    "C08_equality"
   ],
   "note": ""
  },
  {
   "property": "C09",
   "status": "proved",
   "theorems": [
    "C09_add_accepts_iff"
   ],
   "note": ""
  },
  {
   "property": "C10",
   "status": "proved",
   "theorems": [
    "C10_operation_conserves",
    "C10_history_conserves"
   ],
   "note": ""
  },
  {
   "property": "C11",
   "status": "proved",
   "theorems": [
    "C11_returned_unexpired",
    "C11_history_returned_unexpired"
   ],
   "note": ""
  },
  {
   "property": "C12",
   "status": "proved",
   "theorems": [
    "C12_vector_is_mean"
   ],
   "note": "Exact arithmetic (rationals and reals are instances). Memory trimming is excluded, see C13."
  },
  {
   "property": "C13",
   "status": "partial",
   "theorems": [
    "C13_mem_trim_mean_refuted",
    "C13_mem_trim_vector_partial",
    "C13_mem_trim_data_partial"
   ],
   "note": "REFUTED: the vector becomes that of the datapoint stored last. Proved: exactly that, and what is kept."
  },
  {
   "property": "C14",
   "status": "proved",
   "theorems": [
    "C14_move_vector_repairs"
   ],
   "note": ""
  },
  {
   "property": "C15",
   "status": "partial",
   "theorems": [
    "C15_ieee_mean_refuted",
    "C15_ieee_mean_partial"
   ],
   "note": "REFUTED in general: overflow to infinity persists after the large datapoints are gone. The error bound holds for coordinates up to 2^990 and up to 2^24 accepted datapoints, without MemTrim (see C13)."
  },
  {
   "property": "C16",
   "status": "proved",
   "theorems": [
    "C16_drain_unordered",
    "C16_negative_counts_panic"
   ],
   "note": ""
  },
  {
   "property": "C17",
   "status": "proved",
   "theorems": [
    "C17_drain_ordered",
    "C17_drain_ordered_worst"
   ],
   "note": ""
  },
  {
   "property": "C18",
   "status": "proved",
   "theorems": [
    "C18_knn_lookup",
    "C18_knn_lookup_best"
   ],
   "note": ""
  },
  {
   "property": "C19",
   "status": "proved",
   "theorems": [
    "C19_expire",
    "C19_when"
   ],
   "note": ""
  },
  {
   "property": "C20",
   "status": "proved",
   "theorems": [
    "C20_distribute_conserves"
   ],
   "note": ""
  },
  {
   "property": "C21",
   "status": "proved",
   "theorems": [
    "C21_add_stores_once",
    "C21_add_accepts_iff",
    "C21_add_goes_to_nearest"
   ],
   "note": ""
  },
  {
   "property": "C22",
   "status": "proved",
   "theorems": [
    "C22_drain_even"
   ],
   "note": ""
  },
  {
   "property": "C23",
   "status": "partial",
   "theorems": [
    "C23_drain_at_most",
    "C23_drain_exactly",
    "C23_drain_zero_refuted"
   ],
   "note": "REFUTED for a count of 0 (unordered drain removes one). Proved for every count of at least 1."
  },
  {
   "property": "C24",
   "status": "proved",
   "theorems": [
    "C24_dimension_consistent"
   ],
   "note": "Histories of any length with non-negative counts."
  },
  {
   "property": "C25",
   "status": "proved",
   "theorems": [
    "C25_history_conserves"
   ],
   "note": "Up to datapoints observed expired."
  },
  {
   "property": "C26",
   "status": "proved",
   "theorems": [
    "C26_history_runs",
    "C26_negative_counts_panic"
   ],
   "note": ""
  },
  {
   "property": "C27",
   "status": "partial",
   "theorems": [
    "C27_automatic_split_refuted",
    "C27_split_refuted",
    "C27_mem_trim_refuted",
    "C27_merge_refuted",
    "C27_vector_is_mean_partial",
    "C27_move_vector_restores"
   ],
   "note": "REFUTED for automatic split, split, memory trim and merge. Proved for the other operations, and that MoveVector restores it."
  },
  {
   "property": "C28",
   "status": "partial",
   "theorems": [
    "C28_last_centroid_refuted",
    "C28_vector_after_nearest_partial"
   ],
   "note": "REFUTED: with its last centroid drained the vector is NaN and can no longer be found. Proved when centroids remain."
  },
  {
   "property": "C29",
   "status": "proved",
   "theorems": [
    "C29_nearest_centroids",
    "C29_nearest_centroids_best"
   ],
   "note": ""
  },
  {
   "property": "C30",
   "status": "proved",
   "theorems": [
    "C30_lookup"
   ],
   "note": ""
  },
  {
   "property": "C31",
   "status": "partial",
   "theorems": [
    "C31_lookup_finds_refuted",
    "C31_lookup_finds_partial",
    "C31_lookup_finds_linear_partial"
   ],
   "note": "REFUTED: an empty centroid in the way hides datapoints. Proved when every centroid has datapoints and every vector can be ranked."
  },
  {
   "property": "C32",
   "status": "proved",
   "theorems": [
    "C32_centroids_stay_small",
    "C32_no_threshold_no_split"
   ],
   "note": ""
  },
  {
   "property": "C33",
   "status": "proved",
   "theorems": [
    "C33_split"
   ],
   "note": ""
  },
  {
   "property": "C34",
   "status": "proved",
   "theorems": [
    "C34_merge_conserves"
   ],
   "note": ""
  },
  {
   "property": "C35",
   "status": "proved",
   "theorems": [
    "C35_merge_all"
   ],
   "note": ""
  },
  {
   "property": "C36",
   "status": "proved",
   "theorems": [
    "C36_len_dp",
    "C36_metadata",
    "C36_namespaces",
    "C36_server_len_dp"
   ],
   "note": "Manager and server: sizes, metadata, namespace list."
  },
  {
   "property": "C37",
   "status": "proved",
   "theorems": [
    "C37_isolated",
    "C37_independent"
   ],
   "note": "Isolation for concurrent pools under every interleaving; independence for a request running alone."
  },
  {
   "property": "C38",
   "status": "proved",
   "theorems": [
    "C38_unknown",
    "C38_known"
   ],
   "note": "All namespaced requests but add and steal."
  },
  {
   "property": "C39",
   "status": "partial",
   "theorems": [
    "C39_add_known",
    "C39_add_unknown",
    "C39_acknowledged_add_is_stored_refuted",
    "C39_other_dimension_refuted"
   ],
   "note": "REFUTED: the answer is true in any case; witnesses with an unrankable centroid and with another dimension. Proved: exactly when the datapoint is stored, and that the first add creates the namespace."
  },
  {
   "property": "C40",
   "status": "partial",
   "theorems": [
    "C40_pool_conserves",
    "C40_pool_visible",
    "C40_racing_adds_refuted"
   ],
   "note": "REFUTED when two adds race to create the namespace. Proved: under every interleaving of every kind of request, without lost answers, nothing is lost from the slots; and all stays reachable when the namespaces exist."
  },
  {
   "property": "C41",
   "status": "proved",
   "theorems": [
    "C41_no_deadlock",
    "C41_no_crash",
    "C41_complete",
    "C41_atomic",
    "C41_conservation"
   ],
   "note": "Instruction-level model of the mutexes (Locks.v); completion is for jobs that do not steal, because stealing without end is possible (see C43). Memory outside the mutexes (returned pointers) is not shared in the model."
  },
  {
   "property": "C42",
   "status": "partial",
   "theorems": [
    "C42_distribute_conserves",
    "C42_no_addresses_refuted",
    "C42_rejecting_node_refuted",
    "C42_lost_answer_refuted"
   ],
   "note": "REFUTED: empty address list, a rejecting node that acknowledges, and a lost answer (duplicate). Proved without lost answers, with what is dropped recorded; nothing but expired datapoints when nothing is refused."
  },
  {
   "property": "C43",
   "status": "partial",
   "theorems": [
    "C43_steal",
    "C43_nothing_left_refuted",
    "C43_lost_answer_refuted"
   ],
   "note": "REFUTED: the documented meaning of (0, true), and conservation when an answer is lost. Proved: the rest, for all worlds and limits."
  },
  {
   "property": "C44",
   "status": "partial",
   "theorems": [
    "C44_client_nearest",
    "C44_adjacent_empties_refuted"
   ],
   "note": "REFUTED: panics on two adjacent empty centroids. Proved: exactly then, and otherwise the non-empty centroids remade."
  },
  {
   "property": "C45",
   "status": "proved",
   "theorems": [
    "C45_best_fit_nodes"
   ],
   "note": "Any brute-force search over any distance; the HTTP service uses cosine similarity. A node whose answer is the empty vector counts as not responding."
  },
  {
   "property": "C46",
   "status": "proved",
   "theorems": [
    "C46_no_sender_blocks",
    "C46_progress",
    "C46_collects"
   ],
   "note": "The channel and its goroutines as a transition system; an answer of each address is any allowed one."
  },
  {
   "property": "C47",
   "status": "partial",
   "theorems": [
    "C47_put_once",
    "C47_lost_answer_refuted"
   ],
   "note": "REFUTED when an answer is lost: the datapoint is stored on two nodes. Proved without lost answers, requests may be lost."
  },
  {
   "property": "C48",
   "status": "partial",
   "theorems": [
    "C48_gather",
    "C48_negative",
    "C48_lost_answer_refuted"
   ],
   "note": "REFUTED when an answer is lost: the drained datapoints are gone. Proved without lost answers."
  },
  {
   "property": "C49",
   "status": "proved",
   "theorems": [
    "C49_shuffle"
   ],
   "note": "Any element type."
  },
  {
   "property": "C50",
   "status": "partial",
   "theorems": [
    "C50_put",
    "C50_put_reachable",
    "C50_bad_body",
    "C50_lost_answer_refuted"
   ],
   "note": "REFUTED when an answer is lost: 500 although stored. Proved without lost answers."
  },
  {
   "property": "C51",
   "status": "proved",
   "theorems": [
    "C51_conversion",
    "C51_encoding"
   ],
   "note": "Any number type."
  },
  {
   "property": "C52",
   "status": "partial",
   "theorems": [
    "C52_schedule",
    "C52_every_kth_refuted",
    "C52_period"
   ],
   "note": "REFUTED as 'every k-th loop' (the counter wraps at 1000). Proved: exactly the loops whose counter is a multiple, and how often in 1001 loops."
  },
  {
   "property": "C53",
   "status": "partial",
   "theorems": [
    "C53_runs",
    "C53_never_refuted"
   ],
   "note": "REFUTED: clamped to 1000. Proved: exactly two runs in 1001 loops."
  },
  {
   "property": "C54",
   "status": "partial",
   "theorems": [
    "C54_validated",
    "C54_rest",
    "C54_zero_meta",
    "C54_meta_refuted"
   ],
   "note": "REFUTED for the Meta interval. Proved for the other eight, and that a zero Meta interval panics in the first round."
  },
  {
   "property": "C55",
   "status": "proved",
   "theorems": [
    "C55_stop",
    "C55_quiet"
   ],
   "note": "The tasks are any bounded processes that neither start tasks nor reset the flag. Reads and writes of the flag are atomic in the model."
  },
  {
   "property": "C56",
   "status": "proved",
   "theorems": [
    "C56_pulls",
    "C56_balanced",
    "C56_margin"
   ],
   "note": "The stealing itself is abstract in C56_pulls (any number may come); C56_balanced is about the whole cluster."
  },
  {
   "property": "C57",
   "status": "proved",
   "theorems": [
    "C57_table"
   ],
   "note": "Any network behaviour; an address whose answer is lost is left out."
  },
  {
   "property": "C58",
   "status": "proved",
   "theorems": [
    "C58_check_all",
    "C58_uniform_status"
   ],
   "note": ""
  },
  {
   "property": "C59",
   "status": "partial",
   "theorems": [
    "C59_ties_in_pool_order_refuted",
    "C59_scores_of_any_order",
    "C59_no_ties",
    "C59_best_first_pool"
   ],
   "note": "REFUTED: an equal newcomer can displace an earlier entry. C59_scores_of_any_order, C59_no_ties and C59_best_first_pool are what holds."
  },
  {
   "property": "C60",
   "status": "proved",
   "theorems": [
    "C60_centroid_vectors_are_means"
   ],
   "note": "Exact arithmetic; memory trimming excluded (C13)."
  },
  {
   "property": "C67",
   "status": "proved",
   "theorems": [
    "C67_no_crash",
    "C67_requests_complete"
   ],
   "note": "Requests whose counts are non-negative and whose datapoints fit the namespace's dimension. A steal's loop is bounded by fuel in the model."
  },
  {
   "property": "C68",
   "status": "partial",
   "theorems": [
    "C68_query",
    "C68_negative",
    "C68_unencodable_refuted"
   ],
   "note": "REFUTED for data without JSON form. Proved when all data of the namespace can be encoded."
  },
  {
   "property": "C71",
   "status": "proved",
   "theorems": [
    "C71_no_crash",
    "C71_complete"
   ],
   "note": "Event loops run any number of rounds; steals are bounded by fuel in the model."
  },
  {
   "property": "C72",
   "status": "proved",
   "theorems": [
    "C72_conservation"
   ],
   "note": "Datapoints that a node refuses are recorded by a ghost."
  },
  {
   "property": "C73",
   "status": "proved",
   "theorems": [
    "C73_isolation"
   ],
   "note": ""
  },
  {
   "property": "C74",
   "status": "proved",
   "theorems": [
    "C74_visible"
   ],
   "note": ""
  },
  {
   "property": "C69",
   "status": "partial",
   "theorems": [
    "C69_unlisted_refuted",
    "C72_conservation"
   ],
   "note": "REFUTED (witness C69_unlisted_refuted). C72_conservation is the positive statement, for loops that can reach their own node."
  },
  {
   "property": "C70",
   "status": "proved",
   "theorems": [
    "C70_shipped",
    "C70_valid",
    "C70_period",
    "C70_requests",
    "C70_threshold"
   ],
   "note": "Steals are bounded by fuel in the model, so OutOfFuel is a possible outcome; Panic is not."
  },
  {
   "property": "C61",
   "status": "proved",
   "theorems": [
    "C61_drain_ordered",
    "C61_drain_ordered_worst"
   ],
   "note": "At f64 with the brute-force search the taken ones are the k worst (C61_drain_ordered_worst)."
  },
  {
   "property": "C62",
   "status": "proved",
   "theorems": [
    "C62_expire"
   ],
   "note": ""
  },
  {
   "property": "C63",
   "status": "proved",
   "theorems": [
    "C63_mem_trim"
   ],
   "note": ""
  },
  {
   "property": "C64",
   "status": "proved",
   "theorems": [
    "C64_redistribute"
   ],
   "note": "Assumes that no datapoint expires meanwhile (expiry during internal distribution loses datapoints by design, see C20)."
  },
  {
   "property": "C65",
   "status": "proved",
   "theorems": [
    "C65_merge",
    "C65_merge_none"
   ],
   "note": ""
  },
  {
   "property": "C75",
   "status": "proved",
   "theorems": [
    "C75_any_lengths_safe",
    "C75_any_lengths_complete",
    "C75_any_lengths_conservation",
    "C75_any_lengths_reachable",
    "C75_any_lengths_isolation",
    "C75_locks_safe",
    "C75_locks_complete",
    "C75_locks_conservation"
   ],
   "note": ""
  },
  {
   "property": "C76",
   "status": "partial",
   "theorems": [
    "C76_one_length",
    "C76_concurrent_refuted"
   ],
   "note": "REFUTED as stated for concurrent requests (witness theorem _refuted: vectors with 3 and 2 numbers in one manager). Proved for any sequence of requests."
  },
  {
   "property": "C77",
   "status": "proved",
   "theorems": [
    "C77_namespaces_last"
   ],
   "note": ""
  },
  {
   "property": "C66",
   "status": "partial",
   "theorems": [
    "C66_clients",
    "C66_serial",
    "C66_locks",
    "C66_meta",
    "C66_meta_refuted",
    "C66_transfer_refuted"
   ],
   "note": "REFUTED as stated (witness theorem _refuted); the other theorems say what holds. Proved for requests to one manager that do not create it. REFUTED for Meta and for distribution (witness theorems _refuted); adds that create a namespace race (see C40). What holds for Meta is C66_meta."
  },
  {
   "property": "C78",
   "status": "proved",
   "theorems": [
    "C78_effect"
   ],
   "note": ""
  },
  {
   "property": "C79",
   "status": "proved",
   "theorems": [
    "C79_calls",
    "C79_negative_lookup"
   ],
   "note": "A lookup of a negative number of datapoints panics in the caller instead (C79_negative_lookup)."
  },
  {
   "property": "C80",
   "status": "proved",
   "theorems": [
    "C80_lookup"
   ],
   "note": ""
  },
  {
   "property": "C81",
   "status": "proved",
   "theorems": [
    "C81_query_all",
    "C81_put_then_query"
   ],
   "note": ""
  },
  {
   "property": "C82",
   "status": "partial",
   "theorems": [
    "C82_nearest_refuted",
    "C82_one_centroid_partial"
   ],
   "note": "REFUTED in general (witness C82_nearest_refuted: the query vector is stored and not returned). Proved for one centroid on one node."
  },
  {
   "property": "C83",
   "status": "proved",
   "theorems": [
    "C83_memory",
    "C83_histories"
   ],
   "note": "Distribution to centroids outside the manager is not among the calls; vectors are values (no code writes to a []float64 it has handed out)."
  },
  {
   "property": "C84",
   "status": "partial",
   "theorems": [
    "C84_answers_stay_refuted",
    "C83_memory",
    "C83_histories"
   ],
   "note": "REFUTED (witness C84_answers_stay_refuted). C83_memory and C83_histories are the positive statement, for all other calls."
  },
  {
   "property": "C85",
   "status": "partial",
   "theorems": [
    "C85_trim_exact_refuted",
    "C85_trim_exact_mgr_refuted",
    "C85_trim_bound"
   ],
   "note": "REFUTED as stated (witness theorem _refuted); the other theorems say what holds. The exact claim is REFUTED (witnesses; growth by doubling, as Go does for small slices). Proved: the bound that holds instead, for every growth rule with linear spare room and every history (C85_trim_bound). Any number type."
  },
  {
   "property": "C86",
   "status": "proved",
   "theorems": [
    "C86_upkeep",
    "C86_sending",
    "C86_meta",
    "C86_balance"
   ],
   "note": "Alone, without concurrent requests (Made serves each request alone); C86_upkeep, C86_sending and C86_meta are equivalences, C86_balance says what a run has done."
  },
  {
   "property": "C87",
   "status": "partial",
   "theorems": [
    "C87_log_tells",
    "C87_task_shown",
    "C87_unlisted_refuted",
    "C87_lost_refuted"
   ],
   "note": "REFUTED as stated (witness theorem _refuted); the other theorems say what holds. C87_log_tells: one line per shown address, exact numbers on a perfect network; C87_unlisted_refuted and C87_lost_refuted are the two exceptions. The layout of the text is in C104."
  },
  {
   "property": "C88",
   "status": "proved",
   "theorems": [
    "C88_threshold"
   ],
   "note": ""
  },
  {
   "property": "C89",
   "status": "proved",
   "theorems": [
    "C89_distance",
    "C89_cosine"
   ],
   "note": "Error bounds for IEEE binary64 with an explicit range; C89_cosine over the reals (standard axioms)."
  },
  {
   "property": "C90",
   "status": "proved",
   "theorems": [
    "C90_euclidean",
    "C90_cosine"
   ],
   "note": "All four prefabricated searches. Exactness is refuted in C91."
  },
  {
   "property": "C91",
   "status": "partial",
   "theorems": [
    "C91_cosine_refuted",
    "C91_distance_refuted",
    "C89_distance",
    "C89_cosine",
    "C90_euclidean",
    "C90_cosine"
   ],
   "note": "REFUTED (witnesses C91_distance_refuted, C91_cosine_refuted); the theorems of C89 and C90 bound the deviation."
  },
  {
   "property": "C92",
   "status": "proved",
   "theorems": [
    "C92_nothing_made_up"
   ],
   "note": "Any network, any interleaving."
  },
  {
   "property": "C93",
   "status": "proved",
   "theorems": [
    "C93_copies"
   ],
   "note": "Upper bound for any set of datapoints; requests for a negative number of centroids are left out (what a search function does then is not specified)."
  },
  {
   "property": "C94",
   "status": "partial",
   "theorems": [
    "C94_nothing_lost",
    "C94_drained_refuted"
   ],
   "note": "REFUTED as stated (witness theorem _refuted); the other theorems say what holds. C94_nothing_lost is the lower bound for jobs that do not drain over the network; C94_drained_refuted shows that draining jobs lose data with an answer."
  },
  {
   "property": "C95",
   "status": "partial",
   "theorems": [
    "C95_expired_stays_out",
    "C95_expired_before",
    "C95_centroids_refuted"
   ],
   "note": "REFUTED as stated (witness theorem _refuted); the other theorems say what holds. Proved for all answers but those of NearestCentroids, for which C95_centroids_refuted gives the witness."
  },
  {
   "property": "C96",
   "status": "proved",
   "theorems": [
    "C96_upkeep",
    "C96_expire",
    "C96_mem_trim",
    "C96_merge"
   ],
   "note": "C96_upkeep holds for any network; the other three say what the outcome means on a perfect one."
  },
  {
   "property": "C97",
   "status": "partial",
   "theorems": [
    "C97_at_rest",
    "C97_bounded",
    "C97_no_overshoot",
    "C97_settles_refuted"
   ],
   "note": "REFUTED as stated (witness theorem _refuted); the other theorems say what holds. C97_at_rest, C97_bounded and C97_no_overshoot are the bounds; C97_settles_refuted is the world that never settles; C103 proves that small centroids settle."
  },
  {
   "property": "C98",
   "status": "partial",
   "theorems": [
    "C98_gains",
    "C98_locked_out",
    "C98_not_chosen",
    "C98_fills_refuted"
   ],
   "note": "REFUTED as stated (witness theorem _refuted); the other theorems say what holds. C98_gains is the positive part; C98_locked_out and C98_not_chosen are the lock-out in general, C98_fills_refuted its witness."
  },
  {
   "property": "C99",
   "status": "proved",
   "theorems": [
    "C99_task",
    "C99_loop",
    "C99_balance",
    "C99_fuel"
   ],
   "note": "Fuel bounds the loop of a steal in the model; C99_fuel says that it changes no run that ends."
  },
  {
   "property": "C100",
   "status": "partial",
   "theorems": [
    "C100_stop_returns_refuted",
    "C100_stop_ends_refuted",
    "C100_earlier_served_refuted",
    "C100_accepts_refuted",
    "C100_nothing_new",
    "C100_few_after",
    "C100_no_panic",
    "C100_last_closed",
    "C100_one_failure"
   ],
   "note": "REFUTED in four ways (witnesses); C100_nothing_new, C100_few_after, C100_no_panic, C100_last_closed and C100_one_failure are what holds."
  },
  {
   "property": "C101",
   "status": "proved",
   "theorems": [
    "C101_put",
    "C101_query",
    "C101_other",
    "C101_starts",
    "C101_nil",
    "C101_again"
   ],
   "note": "The rules of net/http that matter are modelled in Routes.v."
  },
  {
   "property": "C102",
   "status": "partial",
   "theorems": [
    "C102_put_accepted",
    "C102_query_accepted",
    "C102_put_read",
    "C102_query_read",
    "C102_answer_read",
    "C102_any_order",
    "C102_strangers",
    "C102_spelling",
    "C102_defaults",
    "C102_dp_defaults",
    "C102_empty_refuted"
   ],
   "note": "REFUTED as stated (witness theorem _refuted); the other theorems say what holds. JSON texts are parsed values here, and the texts of times and bytes are parameters; C109 is about the texts. C102_empty_refuted: an empty object is stored; the other theorems are what holds."
  },
  {
   "property": "C103",
   "status": "proved",
   "theorems": [
    "C103_whole",
    "C103_runs",
    "C103_bounded",
    "C103_balanced",
    "C103_balanced_found",
    "C103_stays"
   ],
   "note": "The bound on centroids is needed: see C97_settles_refuted."
  },
  {
   "property": "C104",
   "status": "partial",
   "theorems": [
    "C104_readable",
    "C104_notes",
    "C104_aligned",
    "C104_forged_refuted"
   ],
   "note": "REFUTED as stated (witness theorem _refuted); the other theorems say what holds. C104_forged_refuted: a namespace with line breaks forges a line. The others are what holds."
  },
  {
   "property": "C105",
   "status": "proved",
   "theorems": [
    "C105_within",
    "C105_crash",
    "C105_query"
   ],
   "note": "Memory smaller than 2^48 bytes is not modelled."
  },
  {
   "property": "C106",
   "status": "proved",
   "theorems": [
    "C106_vec_mean",
    "C106_centroid",
    "C106_manager",
    "C106_bound_needed"
   ],
   "note": "C106_bound_needed shows that the bound on the coordinates is needed."
  },
  {
   "property": "C107",
   "status": "partial",
   "theorems": [
    "C107_cosine",
    "C107_search",
    "C107_contract",
    "C107_machines_refuted"
   ],
   "note": "REFUTED as stated (witness theorem _refuted); the other theorems say what holds. C107_machines_refuted: a query whose nearest vector is another on machines that fuse. No other product in the code can be fused: EuclideanDistance takes a root in between, VecScale stores its products."
  },
  {
   "property": "C108",
   "status": "partial",
   "theorems": [
    "C108_forgets",
    "C108_no_crash",
    "C108_complete",
    "C108_others",
    "C108_visible",
    "C108_conservation",
    "C108_nothing_made_up",
    "C108_copies",
    "C108_nothing_lost",
    "C108_durable_refuted",
    "C108_separates_refuted",
    "C108_thief_refuted"
   ],
   "note": "REFUTED as stated (witness theorem _refuted); the other theorems say what holds. A crash with a restart is over-approximated: goroutines that died are never scheduled again, their calls have lost their answers."
  },
  {
   "property": "C109",
   "status": "partial",
   "theorems": [
    "C109_grammar",
    "C109_strings",
    "C109_strings_any",
    "C109_numbers",
    "C109_numbers_refuted",
    "C109_numbers_all",
    "C109_integers",
    "C109_times",
    "C109_times_exactly",
    "C109_times_refuted",
    "C109_bytes",
    "C109_bytes_exactly",
    "C109_put",
    "C109_query",
    "C109_answer",
    "C109_answer_exists",
    "C109_cut",
    "C109_namespaces",
    "C109_reach_refuted",
    "C109_apart_refuted"
   ],
   "note": "REFUTED as stated (witness theorem _refuted); the other theorems say what holds. C109_numbers_refuted, C109_times_refuted, C109_reach_refuted and C109_apart_refuted: what is false; the other theorems are what holds. Any texts of numbers that are read back are allowed in answers here; C110 is about the ones that are chosen."
  },
  {
   "property": "C110",
   "status": "proved",
   "theorems": [
    "C110_read_back",
    "C110_apart",
    "C110_shortest",
    "C110_form",
    "C110_answer"
   ],
   "note": ""
  },
  {
   "property": "C111",
   "status": "partial",
   "theorems": [
    "C111_values",
    "C111_calls",
    "C111_calls_apart",
    "C111_answers",
    "C111_answers_refuted",
    "C111_errors",
    "C111_times",
    "C111_times_refuted",
    "C111_put",
    "C111_put_west",
    "C111_put_refuted"
   ],
   "note": "REFUTED as stated (witness theorem _refuted); the other theorems say what holds. C111_answers_refuted (vectors of centroids are lost) and C111_times_refuted (one offset cannot be sent), C111_put_refuted (so a put is answered 500): what is false; the other theorems are what holds. The descriptions of types that precede the first value of each type are not modelled, nor what a node makes of bytes that no client sends; all NaNs are one."
  },
  {
   "property": "C112",
   "status": "proved",
   "theorems": [
    "C112_trip",
    "C112_put_sent",
    "C112_query_sent"
   ],
   "note": ""
  },
  {
   "property": "C113",
   "status": "partial",
   "theorems": [
    "C113_first",
    "C113_stopped",
    "C113_again",
    "C113_two_loops_refuted",
    "C113_stop_all"
   ],
   "note": "REFUTED as stated (witness theorem _refuted); the other theorems say what holds."
  },
  {
   "property": "C114",
   "status": "partial",
   "theorems": [
    "C114_rest_refuted"
   ],
   "note": "REFUTED as stated (witness theorem _refuted); the other theorems say what holds."
  },
  {
   "property": "C115",
   "status": "proved",
   "theorems": [
    "C115_closest",
    "C115_centroid",
    "C115_query"
   ],
   "note": ""
  },
  {
   "property": "C116",
   "status": "proved",
   "theorems": [
    "C116_handed",
    "C116_landed"
   ],
   "note": ""
  }
 ]
}