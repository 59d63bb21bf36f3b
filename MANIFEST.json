{
 "claims": [
  {
   "property": "C01",
   "status": "proved",
   "theorems": [
    "C01_buffers_unobservable",
    "C01_linked_dataset_is_sample_list",
    "C01_iteration",
    "C01_negative_index_refuted"
   ],
   "note": "refinement for every session; negative read positions are refuted"
  },
  {
   "property": "C02",
   "status": "proved",
   "theorems": [
    "C02_rejected_sample_effect",
    "C02_atomicity_refuted"
   ],
   "note": "exact effect of a refused sample; atomicity refuted"
  },
  {
   "property": "C03",
   "status": "proved",
   "theorems": [
    "C03_unlinked_length_is_last_label",
    "C03_longest_field_refuted"
   ],
   "note": "documented 'longest field' refuted"
  },
  {
   "property": "C04",
   "status": "proved",
   "theorems": [
    "C04_convert_exact",
    "C04_convert_length",
    "C04_convert_keeps_sync_refuted"
   ],
   "note": "length after conversion is the buffer capacity; sync refuted"
  },
  {
   "property": "C05",
   "status": "proved",
   "theorems": [
    "C05_batches_partition",
    "C05_randomBatches_in_order"
   ],
   "note": ""
  },
  {
   "property": "C06",
   "status": "proved",
   "theorems": [
    "C06_split_partition"
   ],
   "note": "proportion is an exact fraction"
  },
  {
   "property": "C07",
   "status": "proved",
   "theorems": [
    "C07_sequential_is_list_of_sequences"
   ],
   "note": "refinement to a list of sequences for every session of the modelled operations; sequence numbers are non-negative"
  },
  {
   "property": "C08",
   "status": "proved",
   "theorems": [
    "C08_sequential_split"
   ],
   "note": "holds for every drawn index list and every reachable dataset"
  },
  {
   "property": "C09",
   "status": "proved",
   "theorems": [
    "C09_one_of_many",
    "C09_refused",
    "C09_negative_target_refuted",
    "C09_gap_refuted"
   ],
   "note": "exact encoding for non-negative targets below nClasses; negative targets and gaps refuted"
  },
  {
   "property": "C10",
   "status": "proved",
   "theorems": [
    "C10_split_by_class",
    "C10_partition",
    "C10_assignClasses_repairs",
    "C10_added_samples_lost_refuted"
   ],
   "note": "samples added after the last assignClasses are lost (refuted); assignClasses repairs it"
  },
  {
   "property": "C11",
   "status": "proved",
   "theorems": [
    "C11_windows_exact",
    "C11_window_count",
    "C11_final_window_refuted",
    "C11_last_sequence_refuted"
   ],
   "note": "windows returned are exact; the documented coverage of the final window and the last sequence is refuted"
  },
  {
   "property": "C12",
   "status": "proved",
   "theorems": [
    "C12_copy",
    "C12_vectorformat_refuted"
   ],
   "note": "vector format loss for subclasses refuted; deep copy independence holds by construction of the value model"
  },
  {
   "property": "C13",
   "status": "proved",
   "theorems": [
    "C13_topological_order",
    "C13_missing_module"
   ],
   "note": "Kahn-style sort with the pybrain tie-breaking modelled on insertion-ordered dictionaries; order is a topological permutation, cycles and missing modules raise."
  },
  {
   "property": "C14",
   "status": "proved",
   "theorems": [
    "C14_iteration_order_irrelevant",
    "C14_building_order_irrelevant",
    "C14_equal_names_refuted",
    "C14_connection_order_refuted"
   ],
   "note": "Result does not depend on dict iteration or building order when names are distinct; refuted for equal names and for connection order."
  },
  {
   "property": "C15",
   "status": "proved",
   "theorems": [
    "C15_storage_refines_lists",
    "C15_vector_is_concatenation",
    "C15_sort_keeps_values",
    "C15_assignment_distributes",
    "C15_component_write_is_local",
    "C15_wrong_length_refuted"
   ],
   "note": "Heap of arrays with numpy-style views; refinement to lists for every legal session. Networks inside networks: C60."
  },
  {
   "property": "C16",
   "status": "proved",
   "theorems": [
    "C16_copy_is_independent",
    "C16_copied_derivs_disconnected",
    "C16_copied_derivs_refuted"
   ],
   "note": "Deep copy of views; independence for every interleaving; derivs disconnection proved and witnessed."
  },
  {
   "property": "C17",
   "status": "proved",
   "theorems": [
    "C17_activation_solves_network_equations",
    "C17_network_function"
   ],
   "note": ""
  },
  {
   "property": "C18",
   "status": "proved",
   "theorems": [
    "C18_feedforward_gradient",
    "C18_recurrent_gradient",
    "C18_partial_derivative",
    "C18_layers",
    "C18_sigmoid_clipped_refuted",
    "C18_softmax_backward_refuted"
   ],
   "note": "Over the stdlib reals (Print Assumptions lists sig_not_dec, sig_forall_dec, functional_extensionality_dep, as for all Reals theorems). Feed-forward and through time; sigmoid beyond +-500 and softmax's backward refuted."
  },
  {
   "property": "C19",
   "status": "proved",
   "theorems": [
    "C19_second_backActivate",
    "C19_twice_refuted"
   ],
   "note": "Exact description of what the second call computes, for layers that overwrite their input error; sameness refuted on a concrete net."
  },
  {
   "property": "C20",
   "status": "proved",
   "theorems": [
    "C20_backward_transposes",
    "C20_derivatives",
    "C20_permutation_iff",
    "C20_fullnotself_diagonal",
    "C20_linear_no_derivatives"
   ],
   "note": "Over any commutative ring; exact iff for permutations, extra terms for FullNotSelf, zero derivatives for Linear. Subsampling connection not modelled (its backward raises)."
  },
  {
   "property": "C21",
   "status": "proved",
   "theorems": [
    "C21_recurrent_activation_is_recurrence",
    "C21_recurrence_determines_outputs",
    "C21_reset_erases_history"
   ],
   "note": ""
  },
  {
   "property": "C22",
   "status": "proved",
   "theorems": [
    "C22_forget_same_outputs",
    "C22_forget_constant_memory"
   ],
   "note": ""
  },
  {
   "property": "C23",
   "status": "proved",
   "theorems": [
    "C23_softmax",
    "C23_partial_not_normalised"
   ],
   "note": "Exact real arithmetic with the clipping at +-500; PartialSoftmax is shown not normalised."
  },
  {
   "property": "C24",
   "status": "proved",
   "theorems": [
    "C24_partition",
    "C24_attribution",
    "C24_set_after_get",
    "C24_get_after_set",
    "C24_peepholes_refuted",
    "C24_gate_layer_refuted",
    "C24_slices_refuted"
   ],
   "note": "Proved: partition, attribution (well-formed networks of plain and LSTM layers, both styles), and both round trips. Refuted: peephole LSTM layers and gate layers make sortModules raise KeyError, and weights of sliced connections are attributed to the wrong neurons."
  },
  {
   "property": "C25",
   "status": "proved",
   "theorems": [
    "C25_budget",
    "C25_zero_where_masked",
    "C25_set_get",
    "C25_topology",
    "C25_topology_total",
    "C25_zero_budget_refuted",
    "C25_return_zeros_refuted",
    "C25_shared_container_refuted"
   ],
   "note": "Proved for every history of every object sharing a container, with maxComplexity >= 1. Refuted: a budget of zero is not kept, set(get) is not the identity with returnZeros, and copies overwrite each other's container."
  },
  {
   "property": "C26",
   "status": "proved",
   "theorems": [
    "C26_best_epoch",
    "C26_terminates",
    "C26_stopping_rule",
    "C26_max_epochs_refuted",
    "C26_initial_discarded_refuted",
    "C26_returned_errors_refuted",
    "C26_cancelling_errors_refuted"
   ],
   "note": "Proved: the parameters left in the module are those of the first epoch with the least validation error among the epochs trained, the loop stops at the first epoch where maxEpochs or the window test says so, and terminates whenever maxEpochs is given. Refuted parts of the documentation: m+1 epochs are trained, better initial parameters are discarded, the returned validation errors stop before the best one, and the convergence test accepts differences that cancel."
  },
  {
   "property": "C27",
   "status": "proved",
   "theorems": [
    "C27_step",
    "C27_range",
    "C27_growth",
    "C27_argument_overwritten_refuted",
    "C27_initial_step_refuted",
    "C27_plain"
   ],
   "note": "Proved for every gradient history; two refuted readings record that the caller's gradient array is overwritten and that the first step is not the configured initial step size."
  },
  {
   "property": "C28",
   "status": "proved",
   "theorems": [
    "C28_folds",
    "C28_validate",
    "C28_leave_one_out_refuted",
    "C28_one_fold_refuted"
   ],
   "note": "Proved for every permutation and 2 <= n < number of samples; refuted: n equal to the number of samples (leave one out) is refused by an assertion and n = 1 raises ValueError."
  },
  {
   "property": "C29",
   "status": "proved",
   "theorems": [
    "C29_best",
    "C29_steps",
    "C29_terminates",
    "C29_budget",
    "C29_budget_hillclimber",
    "C29_budget_es",
    "C29_es_budget_refuted",
    "C29_max_steps_refuted",
    "C29_stochastic_refuted"
   ],
   "note": "scalar fitness; any algorithm as a program of evaluations; budget overshoot (noisy ES), maxLearningSteps off by one and StochasticHillClimber's best refuted"
  },
  {
   "property": "C30",
   "status": "proved",
   "theorems": [
    "C30_initial_pair",
    "C30_es_refuted",
    "C30_recovers"
   ],
   "note": "pair is consistent iff initialisation evaluates only the start point; ES initialisation refuted; recovery proved"
  },
  {
   "property": "C31",
   "status": "proved",
   "theorems": [
    "C31_direction",
    "C31_desired",
    "C31_second_evaluator_refuted",
    "C31_late_switch_refuted"
   ],
   "note": "every sequence of minimize/setEvaluator; second evaluator and late switch refuted"
  },
  {
   "property": "C32",
   "status": "proved",
   "theorems": [
    "C32_generation",
    "C32_elitism_monotone",
    "C32_all_generations",
    "C32_initial",
    "C32_single_parent",
    "C32_population_of_nine_refuted",
    "C32_full_elite_refuted",
    "C32_start_out_of_bounds_refuted"
   ],
   "note": "at least two selected parents and an elite smaller than the population; single parent, full elite and out-of-bounds start refuted; noise and shuffles are arguments"
  },
  {
   "property": "C33",
   "status": "proved",
   "theorems": [
    "C33_front_exact",
    "C33_front_representatives",
    "C33_python3_refuted",
    "C33_python3_small",
    "C33_empty",
    "C33_constrained_front"
   ],
   "note": "All four implementations, any set iteration order. Objectives are minimised. C33_python3_refuted: the default implementation raises TypeError on Python 3 beyond 100 items. Objective vectors are integers (only their order matters)."
  },
  {
   "property": "C34",
   "status": "proved",
   "theorems": [
    "C34_sort",
    "C34_select",
    "C34_select_respects_domination",
    "C34_crowding_keeps_extremes",
    "C34_crowding_division_refuted"
   ],
   "note": "nsga2select may also fail: C34_crowding_division_refuted (Python numbers; numpy scalars give nan instead). The crowding theorem needs at least 2*dim survivors of the cut front."
  },
  {
   "property": "C35",
   "status": "proved",
   "theorems": [
    "C35_ranked_fitness",
    "C35_default_ranking",
    "C35_default_ranking_single_refuted",
    "C35_top_selection",
    "C35_top_linear",
    "C35_top_linear_nan_refuted",
    "C35_bilinear",
    "C35_tournament_refuted",
    "C35_hansen"
   ],
   "note": "Hansen ranking over the reals (standard library axioms of R). C35_tournament_refuted and the two nan theorems state where the code violates its documentation."
  },
  {
   "property": "C36",
   "status": "proved",
   "theorems": [
    "C36_groups",
    "C36_move",
    "C36_move_no_suicide",
    "C36_suggestions",
    "C36_handicap"
   ],
   "note": "Proved for every board size, both suicide settings and every sequence of moves; groups/liberties also for set-up positions (handicap, random boards)."
  },
  {
   "property": "C37",
   "status": "proved",
   "theorems": [
    "C37_gomoku",
    "C37_illegal",
    "C37_legals",
    "C37_draw_counts_illegal_refuted",
    "C37_full_board_missed_refuted"
   ],
   "note": "Proved for games of legal moves on any board of at least 5x5 and any colour sequence. Two refuted theorems record that illegal attempts are counted as moves, so draws can be declared early or missed."
  },
  {
   "property": "C38",
   "status": "proved",
   "theorems": [
    "C38_pente_move",
    "C38_pente_state",
    "C38_winning_capture_not_recorded_refuted"
   ],
   "note": "Proved for every reachable undecided position and legal move. The refuted theorem records that a move winning by captures neither removes nor counts the captured stones."
  },
  {
   "property": "C39",
   "status": "proved",
   "theorems": [
    "C39_batch",
    "C39_total",
    "C39_bounded",
    "C39_initialize",
    "C39_non_batch",
    "C39_last_reward_refuted",
    "C39_lambda",
    "C39_lambda_crosses_episodes_refuted",
    "C39_lambda_truncates_refuted"
   ],
   "note": "Proved for Q and SARSA, every history and table: the learned table is the left-to-right fold of the one-step backups, every update is total on in-range histories and values stay within the reward bound. Refuted: the last reward of an episode is never used, Q(lambda) carries traces across episode boundaries and truncates rewards; non-batch learning never changes the table."
  },
  {
   "property": "C40",
   "status": "proved",
   "theorems": [
    "C40_step",
    "C40_polar_step",
    "C40_construct",
    "C40_safe",
    "C40_polar_safe",
    "C40_sensors",
    "C40_mdp_observation",
    "C40_mdp_observation_refuted",
    "C40_mdp_reward",
    "C40_no_border_refuted"
   ],
   "note": "Proved for every enclosed maze, plain and turning (PolarMaze), every operation sequence and random outcome. Sharper than stated: the MDP observation is injective on free cells up to two more columns than rows, and confuses two inner cells from three more on. Refuted: without a border the agent walks off the grid through negative indices."
  },
  {
   "property": "C41",
   "status": "proved",
   "theorems": [
    "C41_denormalize",
    "C41_normalize",
    "C41_inverse",
    "C41_actions_within",
    "C41_length_mismatch",
    "C41_sensors_not_clipped_refuted",
    "C41_equal_limits_refuted"
   ],
   "note": "Proved over exact rationals for all limits with lower < upper. Refuted: normalize drops the clipped result, so every out-of-range sensor is reported outside [-1,1]; equal limits raise ZeroDivisionError."
  },
  {
   "property": "C42",
   "status": "proved",
   "theorems": [
    "C42_pairs",
    "C42_game",
    "C42_organize",
    "C42_draws_refuted",
    "C42_elo_conserved",
    "C42_elo_total",
    "C42_elo_direction"
   ],
   "note": "Proved for every game machine, agents' behaviour and pool; ELO for every positive power function. Refuted: drawn games are recorded as wins of the second player. Asking twice for the ratings counts the games twice (C42_elo_direction)."
  },
  {
   "property": "C43",
   "status": "proved",
   "theorems": [
    "C43_protocol",
    "C43_order",
    "C43_observation_any_time_refuted"
   ],
   "note": "Refinement of the agent to a three-phase protocol over lists of episodes for every sequence of calls (rows of the declared sizes). The part 'accepts exactly the cyclic order' is false for observations: they are accepted at any time (C43_observation_any_time_refuted); actions and rewards are accepted exactly in order (C43_order)."
  },
  {
   "property": "C44",
   "status": "proved",
   "theorems": [
    "C44_values",
    "C44_discounted_sum",
    "C44_precision",
    "C44_true_values_refuted",
    "C44_collapsed",
    "C44_q_values",
    "C44_greedy",
    "C44_greedy_q",
    "C44_random",
    "C44_random_deterministic_refuted",
    "C44_policy_iteration",
    "C44_stable_optimal",
    "C44_improvement",
    "C44_policy_iteration_optimal"
   ],
   "note": "All of it, for exact entries; in addition the distance of trueValues to the exact values (at most g^horizon, less than a thousandth, C44_precision; it is not the fixed point, C44_true_values_refuted), policy improvement and optimality of what policy iteration returns with an exact evaluator and enough iterations (at most 1000 actions, C44_policy_iteration_optimal). randomDeterministic always raises TypeError (C44_random_deterministic_refuted)."
  },
  {
   "property": "C45",
   "status": "proved",
   "theorems": [
    "C45_gray_round_trip",
    "C45_gray_inverse",
    "C45_neighbours_differ_in_one_bit",
    "C45_size_matters_refuted"
   ],
   "note": "bijection for every size; a too small size refuted"
  },
  {
   "property": "C46",
   "status": "proved",
   "theorems": [
    "C46_iterCombinations",
    "C46_empty_tuple_refuted",
    "C46_crossproduct"
   ],
   "note": "the empty tuple refuted"
  },
  {
   "property": "C47",
   "status": "proved",
   "theorems": [
    "C47_triu_round_trip",
    "C47_flat_round_trip"
   ],
   "note": "square matrices of any dimension over any entries"
  },
  {
   "property": "C48",
   "status": "proved",
   "theorems": [
    "C48_flood_exact",
    "C48_flood_unbounded",
    "C48_flood_relevant",
    "C48_empty_relevant_refuted"
   ],
   "note": "fuel bounds the while loop and is shown sufficient; relevant=[] refuted"
  },
  {
   "property": "C49",
   "status": "proved",
   "theorems": [
    "C49_jobs",
    "C49_jobs_exact",
    "C49_empty",
    "C49_search",
    "C49_linspace",
    "C49_doe"
   ],
   "note": "Axes abstract (any type) for the 2D search; DOE over exact rationals, validate depends only on the values."
  },
  {
   "property": "C50",
   "status": "proved",
   "theorems": [
    "C50_mixing",
    "C50_completes",
    "C50_no_refresh_refuted",
    "C50_density",
    "C50_single_refuted"
   ],
   "note": "Completed runs keep the number of points, indices strictly increasing and valid, at least one new point from two points on; density identity. Without forced refresh and with an unchanged distribution the run never ends (C50_no_refresh_refuted); a single point may be reused (C50_single_refuted)."
  },
  {
   "property": "C51",
   "status": "proved",
   "theorems": [
    "C51_combinations",
    "C51_sizes_refuted",
    "C51_selection",
    "C51_selection_all_refuted",
    "C51_reproduction",
    "C51_reproduction_empty_refuted",
    "C51_small_population_refuted",
    "C51_burst",
    "C51_burst_single_refuted",
    "C51_evaluate"
   ],
   "note": "Proved for populations of equal size. Refuted parts: unequal sizes raise ValueError; nParents equal to the population size removes everyone ([-0:]); default selection from fewer than four followed by reproduction never ends; burst mutation of a one-member subpopulation never ends."
  },
  {
   "property": "C52",
   "status": "proved",
   "theorems": [
    "C52_drawIndex",
    "C52_drawIndex_tolerant",
    "C52_positive_weight_refuted",
    "C52_all_argmax",
    "C52_r_argmax",
    "C52_permute"
   ],
   "note": "exact rationals; the draw is an argument; zero-weight fall-back refuted"
  },
  {
   "property": "C53",
   "status": "proved",
   "theorems": [
    "C53_knn",
    "C53_found",
    "C53_other_values_refuted",
    "C53_ball",
    "C53_euclidean",
    "C53_euclidean_found",
    "C53_projection_refuted"
   ],
   "note": "MinHash and MultiDimHash. A stored vector of zeros and ones is always found; queries with other numbers are hashed differently (C53_other_values_refuted). MultiDimHash above dimension 24 cannot be filled (C53_projection_refuted)."
  },
  {
   "property": "C54",
   "status": "proved",
   "theorems": [
    "C54_build",
    "C54_lstm_refuted",
    "C54_bidirectional",
    "C54_bidirectional_short_refuted",
    "C54_convolutional",
    "C54_convolutional_whole_refuted",
    "C54_swiping",
    "C54_swiping_thin_refuted"
   ],
   "note": "Connections, sizes, order and parameter counts of buildNetwork, BidirectionalNetwork, SwipingNetwork and ConvolutionalBoardNetwork for all sizes; refuted where sequences of one item, whole-board windows or LSTM networks without exactly one hidden layer are refused."
  },
  {
   "property": "C55",
   "status": "proved",
   "theorems": [
    "C55_roundtrip",
    "C55_files",
    "C55_roles_refuted",
    "C55_same_names_refuted",
    "C55_nested_names_refuted",
    "C55_mothers_refuted",
    "C55_classes_refuted",
    "C55_gaussian_refuted",
    "C55_forget_refuted",
    "C55_builders_refuted",
    "C55_stale_refuted"
   ],
   "note": "Any savable network (nested, recurrent, with shared weights) is read back the same up to the identity of its objects and the order of its module and mother lists, whatever clean readings happened before; files by index and by name. Savable asks that no module is both input and output, that names of inner modules are pairwise different and that arguments are plain values the constructors take. The _refuted theorems show each of these is needed: role lost, rewired or unsortable with equal names, mothers of one name merged, class-valued arguments, GaussianLayer, forget, constructors that build their own modules, stale class-level registries."
  },
  {
   "property": "C56",
   "status": "proved",
   "theorems": [
    "C56_episode",
    "C56_tmaze_wrong_turn_refuted",
    "C56_tiger_total_refuted",
    "C56_tiger_reward",
    "C56_tiger_observation",
    "C56_maze4x3_opposite_refuted"
   ],
   "note": "Proved for MazeTask with exact rewards; T-maze (any length), tiger and 4x3 maze deviations are recorded as refuted readings."
  },
  {
   "property": "C57",
   "status": "proved",
   "theorems": [
    "C57_episodes",
    "C57_queue",
    "C57_empty_episode_refuted"
   ],
   "note": "Histories are windows of the list of all episodes. An episode without a step makes the next newEpisode raise EmptySequenceError (C57_empty_episode_refuted)."
  },
  {
   "property": "C58",
   "status": "proved",
   "theorems": [
    "C58_forward",
    "C58_gradient",
    "C58_input_error",
    "C58_without_reset_refuted",
    "C58_mdlstm_gradient",
    "C58_mdlstm_layer"
   ],
   "note": "Real arithmetic; f, g, h are the sigmoid (with the clipping of safeExp) and tanh. Buffer growth is not modelled (rows exist whenever read, as RecurrentNetwork guarantees). C58_without_reset_refuted shows the stale error rows with integer transfer functions."
  },
  {
   "property": "C59",
   "status": "proved",
   "theorems": [
    "C59_nested_gradient",
    "C59_nested_activation",
    "C59_partial_derivative"
   ],
   "note": "Over R for differentiable layers; activation over any commutative ring. Inner networks are sorted before they are added; recurrent networks as inner modules are not covered."
  },
  {
   "property": "C60",
   "status": "proved",
   "theorems": [
    "C60_consistent",
    "C60_vector",
    "C60_sort",
    "C60_add",
    "C60_set",
    "C60_write",
    "C60_inner_rejects",
    "C60_unsorted_inner_refuted",
    "C60_late_sort_refuted",
    "C60_inner_resort_refuted"
   ],
   "note": "Heap of arrays with numpy-style views, trees of containers. Derivatives are laid out the same way and not repeated. Shared connections count as one component (the mother)."
  },
  {
   "property": "C61",
   "status": "proved",
   "theorems": [
    "C61_recurrent_gradient",
    "C61_feedforward_gradient",
    "C61_partial_derivatives",
    "C61_any_state",
    "C61_online_epoch",
    "C61_batch_epoch",
    "C61_batch_order",
    "C61_in_sync",
    "C61_outside_write",
    "C61_batch_descends",
    "C61_small_rate_reduces_error",
    "C61_outside_write_refuted",
    "C61_batch_ignores_weightdecay",
    "C61_weightdecay_refuted"
   ],
   "note": "The model covers train, _calcDerivs and the sharing of arrays between the module and the descent object. C61_outside_write_refuted and C61_weightdecay_refuted show the two readings that fail: parameters written into the module are lost at the next online step, and batch mode ignores weightdecay. C61_any_state assumes differentiability along both runs."
  },
  {
   "property": "C62",
   "status": "proved",
   "theorems": [
    "C62_sphere",
    "C62_cigar",
    "C62_tablet",
    "C62_sharpbis",
    "C62_elli",
    "C62_diffpow",
    "C62_rosenbrock",
    "C62_rosenbrock_one_refuted",
    "C62_glasmachers",
    "C62_schwefel_refuted",
    "C62_rastrigin",
    "C62_ackley",
    "C62_griewank",
    "C62_schaffers",
    "C62_griewankrosenbrock_refuted",
    "C62_funnel_refuted",
    "C62_weierstrass_refuted",
    "C62_multimodal_target_refuted",
    "C62_boundedlinear_refuted",
    "C62_bucherastrigin",
    "C62_bucherastrigin_writes_refuted",
    "C62_unbounded",
    "C62_translate",
    "C62_translate_base_refuted",
    "C62_rotate_iff",
    "C62_rotate_origin",
    "C62_rotate_refuted",
    "C62_penalize",
    "C62_soft",
    "C62_oscillatify_refuted"
   ],
   "note": "Benchmark functions over the reals, as lists of coordinates; xopt arrays are shared by place, as translation updates them in place. Noise-free; BBOBTransformationFunction is not modelled. The _refuted theorems state which functions and transformations break the documented promise."
  },
  {
   "property": "C63",
   "status": "proved",
   "theorems": [
    "C63_testOnData",
    "C63_evaluateModuleMSE",
    "C63_module_MSE",
    "C63_half",
    "C63_open_sequence_refuted",
    "C63_hit_rate",
    "C63_hit_rate_refuted",
    "C63_sequence_ends",
    "C63_testOnSequenceData",
    "C63_testOnClassData",
    "C63_testOnClassData_refuted",
    "C63_supervised",
    "C63_supervised_memory_refuted"
   ],
   "note": "Rationals; modules are abstract state machines with a reset. Datasets are those of C07 after any session."
  },
  {
   "property": "C64",
   "status": "proved",
   "theorems": [
    "C64_neighbours",
    "C64_runs",
    "C64_step",
    "C64_memory",
    "C64_invariance",
    "C64_mirror",
    "C64_plane",
    "C64_collapsed",
    "C64_target_refuted"
   ],
   "note": "Proved over any ring of scalars with exact arithmetic; fitness values finite (a fitness of plus or minus infinity would leave the remembered point at the zero vector). C64_target_refuted: the pull goes to the current position of the best neighbour, which may already have moved in the same loop."
  },
  {
   "property": "C65",
   "status": "proved",
   "theorems": [
    "C65_spsa_step",
    "C65_pgpe_step",
    "C65_pgpe_invariance",
    "C65_spsa_invariance",
    "C65_global_never_adapts",
    "C65_global_refuted",
    "C65_fd_step",
    "C65_fd_ignores_direction",
    "C65_fd_refuted"
   ],
   "note": "Proved over the exact reals; momentum 0 in the step theorems, arbitrary in the invariance theorems; rprop mode is not covered. scipy's pinv is an argument of which the theorem assumes D P D = D and that the tried deviations span the space. C65_fd_refuted, C65_fd_ignores_direction, C65_global_refuted and C65_global_never_adapts state what the code gets wrong."
  },
  {
   "property": "C66",
   "status": "proved",
   "theorems": [
    "C66_update",
    "C66_lambda_update",
    "C66_gq_update",
    "C66_traces",
    "C66_tabular",
    "C66_bounded",
    "C66_fixpoint",
    "C66_lstd",
    "C66_lspi",
    "C66_lspi_bonus",
    "C66_lspi_lazy_refuted",
    "C66_policy",
    "C66_boltzmann",
    "C66_rate",
    "C66_reset_refuted",
    "C66_exploration",
    "C66_exploration_refuted",
    "C66_stream",
    "C66_boundary_refuted",
    "C66_batch",
    "C66_batch_refuted",
    "C66_batch_next_action_refuted"
   ],
   "note": "the learners and the linear agent over exact reals; the pseudo-inverse is a parameter assumed to invert invertible matrices; theorems ending in _refuted show where the code departs from its documentation"
  },
  {
   "property": "C67",
   "status": "proved",
   "theorems": [
    "C67_expln",
    "C67_gaussian_layer",
    "C67_gaussian_accumulate_refuted",
    "C67_gaussian_forward",
    "C67_explorer",
    "C67_explorer_refuted",
    "C67_state_dependent",
    "C67_state_dependent_rows",
    "C67_state_dependent_rows_refuted",
    "C67_sde_refuted",
    "C67_session",
    "C67_rows_refuted",
    "C67_baseline",
    "C67_learn",
    "C67_scale_refuted",
    "C67_reinforce",
    "C67_reinforce_refuted",
    "C67_nan_refuted",
    "C67_enac",
    "C67_in_step",
    "C67_alignment_refuted",
    "C67_reset",
    "C67_switches"
   ],
   "note": "over exact reals; the network is a parameter with its back-propagation (assumed to be the vector-Jacobian product where a theorem needs it), the pseudo-inverse of ENAC a parameter; theorems ending in _refuted show where the code departs from the gradient it names"
  },
  {
   "property": "C68",
   "status": "proved",
   "theorems": [
    "C68_utilities",
    "C68_snes_session",
    "C68_snes_order",
    "C68_snes_opposed",
    "C68_snes_clear",
    "C68_snes_store",
    "C68_snes_affine",
    "C68_snes_recombination",
    "C68_snes_batch_order",
    "C68_snes_ties_refuted",
    "C68_snes_variance_refuted",
    "C68_snes_stop",
    "C68_xnes_session",
    "C68_xnes_order",
    "C68_rank1_settings_refuted",
    "C68_cma_parameters",
    "C68_cma_recombination",
    "C68_cma_positive",
    "C68_cma_factor",
    "C68_cma_eig_refuted",
    "C68_cma_order",
    "C68_cma_stop_refuted",
    "C68_cma_translation",
    "C68_cma_scale_refuted",
    "C68_fem_update_size",
    "C68_fem_positive",
    "C68_fem_box",
    "C68_fem_order",
    "C68_fem_minimize",
    "C68_fem_shift_refuted",
    "C68_fem_start_refuted",
    "C68_fem_diagonal_refuted",
    "C68_fem_step",
    "C68_snes_default"
   ],
   "note": "over exact reals, with the random draws, scipy's expm and numpy's eig as parameters under their contracts; the CMA-ES theorems hold for its default parameters; theorems ending in _refuted show where the code departs from the strategy it names"
  },
  {
   "property": "C69",
   "status": "proved",
   "theorems": [
    "C69_never_raises",
    "C69_books",
    "C69_beats",
    "C69_session",
    "C69_generation",
    "C69_fitness_base",
    "C69_fitness_competitive",
    "C69_fitness_multi",
    "C69_multi_single",
    "C69_budget",
    "C69_learn",
    "C69_terminates",
    "C69_games",
    "C69_forever_refuted",
    "C69_sampling_blind_refuted",
    "C69_lineages",
    "C69_sampling",
    "C69_sharing",
    "C69_averaging_lost_refuted",
    "C69_none_selected",
    "C69_no_generation",
    "C69_seeds",
    "C69_multi_budget_refuted",
    "C69_seeds_budget_refuted",
    "C69_first_hof_refuted",
    "C69_best_part_refuted",
    "C69_elite_replaced_refuted",
    "C69_global_mean_refuted",
    "C69_documented_sampling",
    "C69_documented_fitness_refuted",
    "C69_settings",
    "C69_mixture"
   ],
   "note": "The relative and absolute evaluators, mutate, randomize and the averaging of parameters are arguments; random draws come from an arbitrary stream. The subclasses are modelled as if their broken import path were right. Refuted parts are stated as theorems ending in _refuted."
  },
  {
   "property": "C70",
   "status": "proved",
   "theorems": [
    "C70_outputs",
    "C70_error",
    "C70_error_dimensions_refuted",
    "C70_gradient",
    "C70_gradient_likelihood",
    "C70_deviation_refuted",
    "C70_deviation_aim_refuted",
    "C70_posterior",
    "C70_sequence"
   ],
   "note": "Proved over the reals. C70_outputs: what the layer computes. C70_error: the error is the negative log likelihood in one dimension; C70_error_dimensions_refuted gives the exact difference in more. C70_gradient and C70_gradient_likelihood: the derivative of the error along every curve of activations; C70_deviation_refuted: what is sent back is not minus the gradient because the factor of the deviation is missing; C70_deviation_aim_refuted: the deviation training aims for. C70_posterior, C70_sequence."
  },
  {
   "property": "C71",
   "status": "proved",
   "theorems": [
    "C71_sweep",
    "C71_plain_sweep",
    "C71_unique",
    "C71_symmetric",
    "C71_plain_symmetric",
    "C71_views",
    "C71_reflection_refuted",
    "C71_exchange_refuted",
    "C71_extrapolate",
    "C71_extrapolate_square",
    "C71_convolution",
    "C71_convboard",
    "C71_convboard_refuted"
   ],
   "note": "Modelled: connections of swiping, border swiping, capture game (without MDLSTM cells and combined inputs) and convolutional networks, the equations of one forward pass over a ring, extrapolation of border weights. The activation of a hidden layer is any function of its own inputs. Refuted: reflections without dimension symmetry, exchange of three dimensions, windows and boards of one field."
  },
  {
   "property": "C72",
   "status": "proved",
   "theorems": [
    "C72_conditional",
    "C72_sample",
    "C72_gradient",
    "C72_in_step",
    "C72_joint",
    "C72_joint_refuted",
    "C72_first_step",
    "C72_wrong_weight_refuted",
    "C72_momentum",
    "C72_bounded",
    "C72_default",
    "C72_session",
    "C72_settings",
    "C72_bernoulli_layer_refuted",
    "C72_deep_belief_refuted"
   ],
   "note": "Reals. The activation is computed directly from the two full connections; the batches, draws and initial visible biases are arguments. DeepBeliefTrainer only as far as the exception that ends it."
  },
  {
   "property": "C73",
   "status": "proved",
   "theorems": [
    "C73_best",
    "C73_budget",
    "C73_step",
    "C73_switch",
    "C73_inverse_topology_refuted",
    "C73_reported",
    "C73_reported_refuted",
    "C73_guess_refuted",
    "C73_inverse_switch_refuted",
    "C73_start_refuted"
   ],
   "note": "Over rationals; the evaluator may change between evaluations and may diverge; mutations are arbitrary functions that keep weights (topologyMutate) or masks (mutate), as those of MaskedParameters do (C25). The local search is HillClimber with its defaults; evaluatorIsNoisy is False. Refuted: reported parameters, topologies in InverseMemeticSearch, its restoring of the operators after a divergence, the start point. InnerMemeticSearch and InnerInverseMemeticSearch (ES based) are not modelled."
  },
  {
   "property": "C74",
   "status": "proved",
   "theorems": [
    "C74_stateless",
    "C74_turns",
    "C74_interleaved_refuted",
    "C74_derivs_refuted",
    "C74_array_refuted",
    "C74_masked",
    "C74_masked_refuted"
   ],
   "note": "The module is arbitrary (abstract buffers, arbitrary activate and backActivate); parameter arrays live on a heap, so aliasing is part of the model. Refuted in general for recurrent modules, derivatives, shared arrays and masked modules, with the exact discipline under which they do hold. convertToFastNetwork and getBase are not modelled."
  },
  {
   "property": "C75",
   "status": "proved",
   "theorems": [
    "C75_game",
    "C75_complete",
    "C75_average",
    "C75_worth",
    "C75_batch_refuted",
    "C75_refused_moves_refuted",
    "C75_handicap",
    "C75_handicap_range",
    "C75_max_handicap",
    "C75_handicap_floor_refuted",
    "C75_handicap_scale_refuted",
    "C75_handicap_percent_refuted",
    "C75_handicap_no_games_refuted",
    "C75_starts",
    "C75_relative",
    "C75_relative_gomoku",
    "C75_relative_bound",
    "C75_antisymmetric_refuted",
    "C75_small_board_refuted",
    "C75_single_start_refuted",
    "C75_draw_refuted"
   ],
   "note": "Games are abstract rules (instantiated with the capture game and Gomoku); handicap and relative tasks take the game results as an oracle. PenteTask only through GomokuTask's methods. Refuted: batches with alternating colours, reward sign with refused moves, ladder floor, scale, percentage, no games, anti-symmetry, board of size 2, single start, draws."
  },
  {
   "property": "C76",
   "status": "proved",
   "theorems": [
    "C76_random",
    "C76_nonsuicide",
    "C76_killing",
    "C76_gomoku",
    "C76_refused_refuted",
    "C76_end_capture",
    "C76_end_careful",
    "C76_end_gomoku",
    "C76_builtin",
    "C76_one_point_refuted",
    "C76_input",
    "C76_colour_blind",
    "C76_greedy",
    "C76_gibbs",
    "C76_rules_refuted",
    "C76_negative",
    "C76_index",
    "C76_tall_refuted",
    "C76_wide_refuted",
    "C76_capture_module",
    "C76_gomoku_module"
   ],
   "note": ""
  },
  {
   "property": "C77",
   "status": "proved",
   "theorems": [
    "C77_wiring",
    "C77_untold_refuted",
    "C77_none_refuted",
    "C77_shared_refuted",
    "C77_max_table",
    "C77_max_network",
    "C77_values",
    "C77_egreedy",
    "C77_fading",
    "C77_boltzmann",
    "C77_boltzmann_zero",
    "C77_sde",
    "C77_sde_fixed",
    "C77_sde_online_refuted",
    "C77_nfq",
    "C77_nfq_number",
    "C77_nfq_end_refuted",
    "C77_nfq_fixed",
    "C77_nfq_converges",
    "C77_no_module"
   ],
   "note": ""
  },
  {
   "property": "C78",
   "status": "proved",
   "theorems": [
    "C78_motion",
    "C78_integer_division_refuted",
    "C78_energy",
    "C78_rk4",
    "C78_mirror",
    "C78_shift",
    "C78_rest",
    "C78_force",
    "C78_observation",
    "C78_features",
    "C78_reward",
    "C78_episode",
    "C78_total",
    "C78_mirrored_run",
    "C78_late_refuted",
    "C78_offtrack_refuted",
    "C78_two_poles_refuted",
    "C78_double_unobservable_refuted",
    "C78_double_stale_refuted",
    "C78_double_observed",
    "C78_two_carts_refuted",
    "C78_nonmarkov_refuted",
    "C78_nonmarkov_double_refuted",
    "C78_linear_refuted",
    "C78_linear_reward_refuted",
    "C78_glide",
    "C78_start",
    "C78_sensors",
    "C78_reset",
    "C78_linear_finished",
    "C78_again",
    "C78_fresh",
    "C78_features_angles",
    "C78_length"
   ],
   "note": "Proved over exact reals; the Runge-Kutta step of matplotlib is modelled by its definition. Nine refutations of what the tasks are for are theorems (see the statement)."
  },
  {
   "property": "C79",
   "status": "proved",
   "theorems": [
    "C79_phases",
    "C79_evaluation_ends",
    "C79_reset_on_success_refuted",
    "C79_total_kept_refuted",
    "C79_paid_again_refuted",
    "C79_no_reward_refuted",
    "C79_car",
    "C79_car_step",
    "C79_arms_range",
    "C79_arms_simulation",
    "C79_coriolis_refuted",
    "C79_height_refuted",
    "C79_swinger_refuted",
    "C79_xor",
    "C79_xor_refuted",
    "C79_chain",
    "C79_chain_perfect",
    "C79_minimize",
    "C79_minimize_late_refuted",
    "C79_reads_refuted",
    "C79_noise_refuted",
    "C79_minimize_end",
    "C79_ship",
    "C79_ship_step",
    "C79_drag_refuted",
    "C79_arms_ends",
    "C79_arms_worth",
    "C79_arms_rest",
    "C79_car_seen",
    "C79_minimize_run",
    "C79_minimize_paid",
    "C79_ship_action",
    "C79_ship_steering",
    "C79_ship_heading",
    "C79_ship_pays",
    "C79_ship_sum",
    "C79_inertia",
    "C79_arms_pays",
    "C79_ship_start"
   ],
   "note": "Floats are reals, so the results are exact; the random numbers, and for the loop of f the module's actions, are arguments. Rendering is not modelled. The refuted parts are separate theorems."
  },
  {
   "property": "C80",
   "status": "proved",
   "theorems": [
    "C80_slice",
    "C80_slice_neighbours",
    "C80_slice_refuted",
    "C80_layout",
    "C80_layout_refuted",
    "C80_swipe",
    "C80_numbers",
    "C80_network",
    "C80_directions",
    "C80_way_back_refuted",
    "C80_blocks_must_fit",
    "C80_blocks",
    "C80_block_dimensions",
    "C80_blocks_refuted",
    "C80_gates",
    "C80_gates_add_up_refuted",
    "C80_gates"
   ],
   "note": "The compiled (arac) computation of an MdrnnLayer is not in the repository and not modelled. Float rounding abstracted to exact reals in the gates."
  },
  {
   "property": "C81",
   "status": "proved",
   "theorems": [
    "C81_map_winner",
    "C81_full_map_refuted",
    "C81_map_round",
    "C81_map_converges",
    "C81_map_box",
    "C81_map_untrained",
    "C81_seeds",
    "C81_seeds_differ",
    "C81_seeds_refuted",
    "C81_left_ordered",
    "C81_buffet",
    "C81_buffet_size",
    "C81_buffet_chances",
    "C81_components",
    "C81_components_order_refuted",
    "C81_components_none_refuted",
    "C81_centered",
    "C81_reduced"
   ],
   "note": "Exact reals instead of floats; scipy's kmeans2 and eig are not modelled (eigenvalues and eigenvectors are arguments); pPca is not modelled."
  },
  {
   "property": "C82",
   "status": "proved",
   "theorems": [
    "C82_statistics",
    "C82_sampled",
    "C82_starting_states_refuted",
    "C82_row_per_state_refuted",
    "C82_exact",
    "C82_complete",
    "C82_value_function",
    "C82_q_exact",
    "C82_q_complete",
    "C82_lspi",
    "C82_lspi_optimal",
    "C82_lstd_pi_optimal"
   ],
   "note": ""
  },
  {
   "property": "C83",
   "status": "proved",
   "theorems": [
    "C83_block_combine",
    "C83_block_combine_refuted",
    "C83_fisher_blocks",
    "C83_fisher_inverse",
    "C83_fisher_empty",
    "C83_gp_kernel",
    "C83_gp_mean",
    "C83_gp_solvable",
    "C83_gp_constant",
    "C83_gp_cov",
    "C83_gp_history",
    "C83_gp_fresh",
    "C83_gp_new_fresh",
    "C83_gp_stale_refuted",
    "C83_gp_prior_refuted",
    "C83_gp_untrained_refuted",
    "C83_gp_test",
    "C83_gp_avgdist",
    "C83_gp_autonoise_refuted",
    "C83_gp_auto_raises"
   ],
   "note": "Exact reals; solve and inv are arguments assumed right for regular systems; 0 length scale excluded; plotting and the grid construction not modelled."
  },
  {
   "property": "C84",
   "status": "proved",
   "theorems": [
    "C84_shuttle_safe",
    "C84_shuttle_step",
    "C84_shuttle_docks",
    "C84_shuttle_forward_refuted",
    "C84_shuttle_bang_refuted",
    "C84_shuttle_total_refuted",
    "C84_shuttle_observation",
    "C84_polar_ahead",
    "C84_turn_left_refuted",
    "C84_draw",
    "C84_cheese_one_hot",
    "C84_cheese_cells",
    "C84_cheese_memory",
    "C84_four_bad_refuted",
    "C84_four_through_refuted",
    "C84_four_observation",
    "C84_four_observation_refuted",
    "C84_eightynine_states",
    "C84_solvable",
    "C84_starts",
    "C84_eightynine_turned",
    "C84_four_step"
   ],
   "note": "All parts proved. The shuttle's Forward, bang flag, missing total and black observation, the handedness of TurnLeft, the 4x3 maze's bad cell and its observation encoding are refuted by the faithful model."
  },
  {
   "property": "C85",
   "status": "proved",
   "theorems": [
    "C85_genome_shape",
    "C85_set_get",
    "C85_genome_determines",
    "C85_genome_place",
    "C85_short_genome",
    "C85_long_genome",
    "C85_output_matrix",
    "C85_output_matrix_size",
    "C85_washout",
    "C85_extrapolate",
    "C85_length",
    "C85_generate_on",
    "C85_washout_checks",
    "C85_buffer_scaled",
    "C85_buffer_refuted",
    "C85_manipulate",
    "C85_filter",
    "C85_filter_leaf",
    "C85_randomize",
    "C85_mutate",
    "C85_mutate_none",
    "C85_scaled"
   ],
   "note": "The recurrent network inside is any state machine whose outputs have the right size; numbers are reals; normal and uniform draws are arguments; a wrong-sized later washout value is not modelled."
  },
  {
   "property": "C86",
   "status": "proved",
   "theorems": [
    "C86_sch_pareto",
    "C86_fon_pareto",
    "C86_deb_pareto",
    "C86_constdeb_pareto",
    "C86_bnh_pareto",
    "C86_bnh_redundant",
    "C86_srn_optimal",
    "C86_pol_best",
    "C86_feasible",
    "C86_tnk_symmetric",
    "C86_violation",
    "C86_violation_refuted",
    "C86_reports",
    "C86_class_refuted",
    "C86_class_start",
    "C86_lj_energy",
    "C86_lj_dimension",
    "C86_lj_moved",
    "C86_lj_renumbered",
    "C86_lj_bound",
    "C86_lj_table"
   ],
   "note": "Over the reals; arrays have the declared dimension; coincident atoms (infinite in numpy) are outside the model. Kursawe's function is not modelled."
  },
  {
   "property": "C87",
   "status": "proved",
   "theorems": [
    "C87_sparse",
    "C87_sparse_length",
    "C87_sparse_refuted",
    "C87_load",
    "C87_padded",
    "C87_load_raises",
    "C87_samples",
    "C87_samples_refuted",
    "C87_histogram",
    "C87_histogram_first",
    "C87_histogram_refuted",
    "C87_raw",
    "C87_raw_refuted",
    "C87_files",
    "C87_files_refuted",
    "C87_select",
    "C87_select_any",
    "C87_kwargs_add",
    "C87_kwargs",
    "C87_resampler",
    "C87_resample",
    "C87_adapt",
    "C87_rank_changes",
    "C87_batch_one_refuted",
    "C87_batch_none"
   ],
   "note": "Lines arrive split and their numbers read; values are rationals (reals for the resampler); the medians are arguments of a call; the order of the directory listing is an argument. Refuted: counts after a second file, rows of zeros in raw targets, non-ascending indices, an empty extension, batches of one."
  },
  {
   "property": "C88",
   "status": "proved",
   "theorems": [
    "C88_levin",
    "C88_levin_gap_refuted",
    "C88_levin_time_refuted",
    "C88_command",
    "C88_score_refuted",
    "C88_waypoint_refuted",
    "C88_data",
    "C88_point",
    "C88_sent",
    "C88_controller"
   ],
   "note": "Programs are run as a whole (whether the result equals True, or never returns). The server's messages are arguments, split and read as under Python 2; distances are exact. Refuted: gaps in the enumeration, the time limit, the scores."
  },
  {
   "property": "C89",
   "status": "proved",
   "theorems": [
    "C89_edges",
    "C89_sensor_edges",
    "C89_act",
    "C89_floor",
    "C89_floor_reset",
    "C89_bounce",
    "C89_momentum",
    "C89_middle",
    "C89_free_fall",
    "C89_rigid",
    "C89_neutral",
    "C89_reset_refuted",
    "C89_new_refuted",
    "C89_wanted",
    "C89_scaled",
    "C89_speed",
    "C89_range",
    "C89_reached",
    "C89_windup_refuted",
    "C89_pain",
    "C89_walk",
    "C89_jump",
    "C89_contact",
    "C89_height",
    "C89_grow",
    "C89_pull",
    "C89_step",
    "C89_distance",
    "C89_grow_pays",
    "C89_corners"
   ],
   "note": "Exact reals; actions of twelve entries; the sensors Target and Time, the target tasks, rendering and sockets are not modelled. Refuted: the reset keeps the centre of gravity, a new cube is not a reset one, the task's action winds up."
  },
  {
   "property": "C90",
   "status": "proved",
   "theorems": [
    "C90_schedule",
    "C90_monotone",
    "C90_latest",
    "C90_setData_refuted",
    "C90_setDataset",
    "C90_trainOnDataset",
    "C90_new",
    "C90_wait_refuted",
    "C90_split",
    "C90_washout",
    "C90_default_ratio_refuted",
    "C90_ratio_given",
    "C90_extreme",
    "C90_array_of_one"
   ],
   "note": "Documented wait and default ratio refuted (C90_wait_refuted, C90_default_ratio_refuted); setData does not reach the evaluation (C90_setData_refuted)."
  },
  {
   "property": "C91",
   "status": "proved",
   "theorems": [
    "C91_fitness",
    "C91_evaluations",
    "C91_frozen",
    "C91_exact",
    "C91_elitism",
    "C91_elitism_runs",
    "C91_no_elitism_refuted",
    "C91_best_left_refuted"
   ],
   "note": "elitism = False refuted (C91_no_elitism_refuted, C91_best_left_refuted)."
  }
 ]
}