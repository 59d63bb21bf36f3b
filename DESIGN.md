# Formal model of pybrain in Rocq - design

## Approach

The code in `/repo` is modelled function by function as total computable Gallina
functions (Coq 8.16.1). One area has up to three files:

* `X_Model.v`  - the model. Every definition cites the file and lines it models
  and states its simplifications.
* `X_Proofs.v` - lemmas and proofs about the model.
* `X_Props.v`  - the property theorems (named `Cnn_...`), each stated with a
  small specification that does not use the model's helpers, a concrete
  non-trivial example that meets the hypotheses, and `Print Assumptions`.

Python exceptions are values (`result A := Ok a | Err e`); when an operation can
fail half way, the model returns the state the exception leaves behind.
Random generators, user callbacks and numeric transfer functions are explicit
arguments, so every theorem quantifies over them.

Where the faithful model violates what the documentation promises, the property
is stated with the exact condition under which it holds, and a theorem with
suffix `_refuted` exhibits a concrete state where the unconditional version fails.
A theorem with suffix `_partial` proves only part of its property; the comment
beside it says what is missing.

## Semantic target

* Python 3 syntax with the NumPy of the project's period (before 1.12): float
  indices and slice bounds are truncated to integers. Integer `/` in code that
  was written for Python 2 is modelled as floor division, and this is said at
  the definition.
* Floats are modelled by an exact ordered structure (Z, Q or R, or an abstract
  ring / ordered type). Rounding, overflow, NaN and infinities are not modelled
  unless the definition says so.
* Object identity matters in a few places (parameter views); there the model has
  an explicit store.

## Trusted base

* Coq's kernel (`coqc`; no `-type-in-type`, no disabled guard or universe check).
* What `Print Assumptions` lists, see the table "Assumptions" below.
* The hand translation from Python to Gallina, checked only by reading.

## Assumptions

`Print Assumptions` stands below every property theorem. It answers "Closed under the global context" for all of them except:

| theorem | axioms of the standard library |
|---|---|
| `C18_feedforward_gradient` | sig_forall_dec, functional_extensionality_dep |
| `C18_recurrent_gradient` | sig_forall_dec, functional_extensionality_dep |
| `C18_partial_derivative` | sig_forall_dec, functional_extensionality_dep |
| `C18_layers` | sig_not_dec, sig_forall_dec, functional_extensionality_dep |
| `C18_sigmoid_clipped_refuted` | sig_not_dec, sig_forall_dec, functional_extensionality_dep |
| `C18_softmax_backward_refuted` | sig_not_dec, sig_forall_dec, functional_extensionality_dep |
| `C19_second_backActivate` | sig_forall_dec, functional_extensionality_dep |
| `C23_softmax` | sig_not_dec, sig_forall_dec, functional_extensionality_dep, classic |
| `C23_partial_not_normalised` | sig_not_dec, sig_forall_dec, functional_extensionality_dep, classic |
| `C35_hansen` | sig_not_dec, sig_forall_dec, functional_extensionality_dep, classic |
| `C58_forward` | sig_not_dec, sig_forall_dec, functional_extensionality_dep |
| `C58_gradient` | sig_not_dec, sig_forall_dec, functional_extensionality_dep |
| `C58_input_error` | sig_not_dec, sig_forall_dec, functional_extensionality_dep |
| `C58_mdlstm_gradient` | sig_not_dec, sig_forall_dec, functional_extensionality_dep |
| `C58_mdlstm_layer` | sig_not_dec, sig_forall_dec, functional_extensionality_dep |
| `C59_nested_gradient` | sig_forall_dec, functional_extensionality_dep |
| `C59_nested_activation` | functional_extensionality_dep |
| `C59_partial_derivative` | sig_forall_dec, functional_extensionality_dep |
| `C61_recurrent_gradient` | sig_forall_dec, functional_extensionality_dep |
| `C61_feedforward_gradient` | sig_forall_dec, functional_extensionality_dep |
| `C61_partial_derivatives` | sig_forall_dec, functional_extensionality_dep |
| `C61_any_state` | sig_forall_dec, functional_extensionality_dep |
| `C61_batch_descends` | sig_forall_dec, functional_extensionality_dep |
| `C61_small_rate_reduces_error` | sig_forall_dec, functional_extensionality_dep |
| `C62_sphere` | sig_forall_dec, functional_extensionality_dep |
| `C62_cigar` | sig_forall_dec, functional_extensionality_dep |
| `C62_tablet` | sig_forall_dec, functional_extensionality_dep |
| `C62_sharpbis` | sig_not_dec, sig_forall_dec, functional_extensionality_dep |
| `C62_elli` | sig_not_dec, sig_forall_dec, functional_extensionality_dep, classic |
| `C62_diffpow` | sig_not_dec, sig_forall_dec, functional_extensionality_dep, classic |
| `C62_rosenbrock` | sig_forall_dec, functional_extensionality_dep |
| `C62_rosenbrock_one_refuted` | sig_forall_dec |
| `C62_glasmachers` | sig_not_dec, sig_forall_dec, functional_extensionality_dep |
| `C62_schwefel_refuted` | sig_forall_dec, functional_extensionality_dep |
| `C62_rastrigin` | sig_not_dec, sig_forall_dec, functional_extensionality_dep, classic |
| `C62_ackley` | sig_not_dec, sig_forall_dec, functional_extensionality_dep, classic |
| `C62_griewank` | sig_not_dec, sig_forall_dec, functional_extensionality_dep |
| `C62_schaffers` | sig_not_dec, sig_forall_dec, functional_extensionality_dep, classic |
| `C62_griewankrosenbrock_refuted` | sig_not_dec, sig_forall_dec, functional_extensionality_dep |
| `C62_funnel_refuted` | sig_forall_dec, functional_extensionality_dep |
| `C62_weierstrass_refuted` | sig_not_dec, sig_forall_dec, functional_extensionality_dep |
| `C62_multimodal_target_refuted` | sig_not_dec, sig_forall_dec, functional_extensionality_dep, classic |
| `C62_boundedlinear_refuted` | sig_forall_dec, functional_extensionality_dep |
| `C62_bucherastrigin` | sig_not_dec, sig_forall_dec, functional_extensionality_dep, classic |
| `C62_bucherastrigin_writes_refuted` | sig_not_dec, sig_forall_dec, functional_extensionality_dep, classic |
| `C62_unbounded` | sig_not_dec, sig_forall_dec, functional_extensionality_dep |
| `C62_translate` | sig_forall_dec, functional_extensionality_dep |
| `C62_translate_base_refuted` | sig_forall_dec, functional_extensionality_dep |
| `C62_rotate_iff` | sig_forall_dec |
| `C62_rotate_origin` | sig_forall_dec, functional_extensionality_dep |
| `C62_rotate_refuted` | sig_forall_dec, functional_extensionality_dep |
| `C62_penalize` | sig_forall_dec, functional_extensionality_dep |
| `C62_soft` | sig_forall_dec, functional_extensionality_dep |
| `C62_oscillatify_refuted` | sig_not_dec, sig_forall_dec, functional_extensionality_dep, classic |
| `C65_spsa_step` | sig_forall_dec, functional_extensionality_dep |
| `C65_pgpe_step` | sig_forall_dec, functional_extensionality_dep |
| `C65_pgpe_invariance` | sig_forall_dec, functional_extensionality_dep |
| `C65_spsa_invariance` | sig_forall_dec, functional_extensionality_dep |
| `C65_global_never_adapts` | sig_forall_dec, functional_extensionality_dep |
| `C65_global_refuted` | sig_forall_dec, functional_extensionality_dep |
| `C65_fd_step` | sig_forall_dec, functional_extensionality_dep |
| `C65_fd_ignores_direction` | sig_forall_dec, functional_extensionality_dep |
| `C65_fd_refuted` | sig_forall_dec, functional_extensionality_dep |
| `C66_update` | sig_forall_dec, functional_extensionality_dep |
| `C66_lambda_update` | sig_forall_dec, functional_extensionality_dep |
| `C66_gq_update` | sig_forall_dec, functional_extensionality_dep |
| `C66_traces` | sig_forall_dec, functional_extensionality_dep |
| `C66_tabular` | sig_forall_dec, functional_extensionality_dep |
| `C66_bounded` | sig_not_dec, sig_forall_dec, functional_extensionality_dep |
| `C66_fixpoint` | sig_forall_dec, functional_extensionality_dep |
| `C66_lstd` | sig_forall_dec, functional_extensionality_dep |
| `C66_lspi` | sig_forall_dec, functional_extensionality_dep |
| `C66_lspi_bonus` | sig_forall_dec, functional_extensionality_dep |
| `C66_lspi_lazy_refuted` | sig_forall_dec, functional_extensionality_dep |
| `C66_policy` | sig_not_dec, sig_forall_dec, functional_extensionality_dep |
| `C66_boltzmann` | sig_not_dec, sig_forall_dec, functional_extensionality_dep, classic |
| `C66_rate` | sig_forall_dec, functional_extensionality_dep |
| `C66_reset_refuted` | sig_forall_dec, functional_extensionality_dep |
| `C66_exploration` | sig_not_dec, sig_forall_dec, functional_extensionality_dep |
| `C66_exploration_refuted` | sig_not_dec, sig_forall_dec, functional_extensionality_dep |
| `C66_stream` | sig_not_dec, sig_forall_dec, functional_extensionality_dep |
| `C66_boundary_refuted` | sig_not_dec, sig_forall_dec, functional_extensionality_dep |
| `C66_batch` | sig_not_dec, sig_forall_dec, functional_extensionality_dep |
| `C66_batch_refuted` | sig_not_dec, sig_forall_dec, functional_extensionality_dep |
| `C66_batch_next_action_refuted` | sig_not_dec, sig_forall_dec, functional_extensionality_dep |
| `C67_expln` | sig_not_dec, sig_forall_dec, functional_extensionality_dep, classic |
| `C67_gaussian_layer` | sig_not_dec, sig_forall_dec, functional_extensionality_dep, classic |
| `C67_gaussian_accumulate_refuted` | sig_not_dec, sig_forall_dec, functional_extensionality_dep, classic |
| `C67_gaussian_forward` | sig_not_dec, sig_forall_dec, functional_extensionality_dep, classic |
| `C67_explorer` | sig_not_dec, sig_forall_dec, functional_extensionality_dep, classic |
| `C67_explorer_refuted` | sig_not_dec, sig_forall_dec, functional_extensionality_dep, classic |
| `C67_state_dependent` | sig_not_dec, sig_forall_dec, functional_extensionality_dep, classic |
| `C67_state_dependent_rows` | sig_not_dec, sig_forall_dec, functional_extensionality_dep, classic |
| `C67_state_dependent_rows_refuted` | sig_not_dec, sig_forall_dec, functional_extensionality_dep, classic |
| `C67_session` | sig_not_dec, sig_forall_dec, functional_extensionality_dep, classic |
| `C67_rows_refuted` | sig_not_dec, sig_forall_dec, functional_extensionality_dep, classic |
| `C67_baseline` | sig_forall_dec, functional_extensionality_dep |
| `C67_learn` | sig_forall_dec, functional_extensionality_dep |
| `C67_scale_refuted` | sig_forall_dec, functional_extensionality_dep |
| `C67_reinforce` | sig_forall_dec, functional_extensionality_dep |
| `C67_reinforce_refuted` | sig_not_dec, sig_forall_dec, functional_extensionality_dep, classic |
| `C67_nan_refuted` | sig_not_dec, sig_forall_dec, functional_extensionality_dep, classic |
| `C67_enac` | sig_forall_dec, functional_extensionality_dep |
| `C67_in_step` | sig_not_dec, sig_forall_dec, functional_extensionality_dep, classic |
| `C67_alignment_refuted` | sig_not_dec, sig_forall_dec, functional_extensionality_dep, classic |
| `C67_reset` | sig_not_dec, sig_forall_dec, functional_extensionality_dep, classic |
| `C67_switches` | sig_not_dec, sig_forall_dec, functional_extensionality_dep, classic |
| `C68_utilities` | sig_not_dec, sig_forall_dec, functional_extensionality_dep, classic |
| `C68_snes_session` | sig_not_dec, sig_forall_dec, functional_extensionality_dep, classic |
| `C68_snes_order` | sig_not_dec, sig_forall_dec, functional_extensionality_dep, classic |
| `C68_snes_opposed` | sig_not_dec, sig_forall_dec, functional_extensionality_dep, classic |
| `C68_snes_clear` | sig_not_dec, sig_forall_dec, functional_extensionality_dep, classic |
| `C68_snes_store` | sig_not_dec, sig_forall_dec, functional_extensionality_dep, classic |
| `C68_snes_affine` | sig_not_dec, sig_forall_dec, functional_extensionality_dep, classic |
| `C68_snes_recombination` | sig_not_dec, sig_forall_dec, functional_extensionality_dep, classic |
| `C68_snes_batch_order` | sig_not_dec, sig_forall_dec, functional_extensionality_dep, classic |
| `C68_snes_ties_refuted` | sig_not_dec, sig_forall_dec, functional_extensionality_dep, classic |
| `C68_snes_variance_refuted` | sig_not_dec, sig_forall_dec, functional_extensionality_dep |
| `C68_snes_stop` | sig_forall_dec, functional_extensionality_dep |
| `C68_xnes_session` | sig_not_dec, sig_forall_dec, functional_extensionality_dep, classic |
| `C68_xnes_order` | sig_not_dec, sig_forall_dec, functional_extensionality_dep, classic |
| `C68_rank1_settings_refuted` | sig_not_dec, sig_forall_dec, functional_extensionality_dep, classic |
| `C68_cma_parameters` | sig_not_dec, sig_forall_dec, functional_extensionality_dep, classic |
| `C68_cma_recombination` | sig_not_dec, sig_forall_dec, functional_extensionality_dep, classic |
| `C68_cma_positive` | sig_not_dec, sig_forall_dec, functional_extensionality_dep, classic |
| `C68_cma_factor` | sig_not_dec, sig_forall_dec, functional_extensionality_dep, classic |
| `C68_cma_eig_refuted` | sig_not_dec, sig_forall_dec, functional_extensionality_dep |
| `C68_cma_order` | sig_not_dec, sig_forall_dec, functional_extensionality_dep, classic |
| `C68_cma_stop_refuted` | sig_not_dec, sig_forall_dec, functional_extensionality_dep, classic |
| `C68_cma_translation` | sig_not_dec, sig_forall_dec, functional_extensionality_dep, classic |
| `C68_cma_scale_refuted` | sig_not_dec, sig_forall_dec, functional_extensionality_dep, classic |
| `C68_fem_update_size` | sig_forall_dec, functional_extensionality_dep |
| `C68_fem_positive` | sig_forall_dec, functional_extensionality_dep |
| `C68_fem_box` | sig_forall_dec, functional_extensionality_dep |
| `C68_fem_order` | sig_forall_dec, functional_extensionality_dep |
| `C68_fem_minimize` | sig_forall_dec, functional_extensionality_dep |
| `C68_fem_shift_refuted` | sig_forall_dec, functional_extensionality_dep |
| `C68_fem_start_refuted` | sig_forall_dec, functional_extensionality_dep |
| `C68_fem_diagonal_refuted` | sig_not_dec, sig_forall_dec, functional_extensionality_dep |
| `C68_fem_step` | sig_forall_dec, functional_extensionality_dep |
| `C68_snes_default` | sig_not_dec, sig_forall_dec, functional_extensionality_dep, classic |
| `C70_outputs` | sig_not_dec, sig_forall_dec, functional_extensionality_dep |
| `C70_error` | sig_not_dec, sig_forall_dec, functional_extensionality_dep, classic |
| `C70_error_dimensions_refuted` | sig_not_dec, sig_forall_dec, functional_extensionality_dep, classic |
| `C70_gradient` | sig_not_dec, sig_forall_dec, functional_extensionality_dep, classic |
| `C70_gradient_likelihood` | sig_not_dec, sig_forall_dec, functional_extensionality_dep, classic |
| `C70_deviation_refuted` | sig_not_dec, sig_forall_dec, functional_extensionality_dep, classic |
| `C70_deviation_aim_refuted` | sig_not_dec, sig_forall_dec, functional_extensionality_dep, classic |
| `C70_posterior` | sig_not_dec, sig_forall_dec, functional_extensionality_dep, classic |
| `C70_sequence` | sig_not_dec, sig_forall_dec, functional_extensionality_dep, classic |
| `C72_conditional` | sig_not_dec, sig_forall_dec, functional_extensionality_dep |
| `C72_sample` | sig_forall_dec, functional_extensionality_dep |
| `C72_gradient` | sig_not_dec, sig_forall_dec, functional_extensionality_dep, classic |
| `C72_in_step` | sig_not_dec, sig_forall_dec, functional_extensionality_dep |
| `C72_joint` | sig_not_dec, sig_forall_dec, functional_extensionality_dep |
| `C72_joint_refuted` | sig_not_dec, sig_forall_dec, functional_extensionality_dep, classic |
| `C72_first_step` | sig_not_dec, sig_forall_dec, functional_extensionality_dep, classic |
| `C72_wrong_weight_refuted` | sig_not_dec, sig_forall_dec, functional_extensionality_dep, classic |
| `C72_momentum` | sig_not_dec, sig_forall_dec, functional_extensionality_dep |
| `C72_bounded` | sig_not_dec, sig_forall_dec, functional_extensionality_dep |
| `C72_default` | sig_not_dec, sig_forall_dec, functional_extensionality_dep |
| `C72_session` | sig_not_dec, sig_forall_dec, functional_extensionality_dep |
| `C72_settings` | sig_forall_dec, functional_extensionality_dep |
| `C72_bernoulli_layer_refuted` | sig_forall_dec, functional_extensionality_dep |
| `C76_input` | sig_forall_dec |
| `C76_colour_blind` | sig_not_dec, sig_forall_dec, functional_extensionality_dep |
| `C76_greedy` | sig_not_dec, sig_forall_dec, functional_extensionality_dep |
| `C76_gibbs` | sig_not_dec, sig_forall_dec, functional_extensionality_dep |
| `C76_rules_refuted` | sig_not_dec, sig_forall_dec, functional_extensionality_dep |
| `C76_negative` | sig_not_dec, sig_forall_dec, functional_extensionality_dep |
| `C76_tall_refuted` | sig_not_dec, sig_forall_dec, functional_extensionality_dep |
| `C76_wide_refuted` | sig_not_dec, sig_forall_dec, functional_extensionality_dep |
| `C76_capture_module` | sig_not_dec, sig_forall_dec, functional_extensionality_dep |
| `C76_gomoku_module` | sig_not_dec, sig_forall_dec, functional_extensionality_dep |
| `C77_max_table` | sig_forall_dec, functional_extensionality_dep |
| `C77_max_network` | sig_forall_dec, functional_extensionality_dep |
| `C77_values` | sig_forall_dec |
| `C77_egreedy` | sig_not_dec, sig_forall_dec, functional_extensionality_dep |
| `C77_fading` | sig_forall_dec, functional_extensionality_dep |
| `C77_boltzmann` | sig_not_dec, sig_forall_dec, functional_extensionality_dep, classic |
| `C77_boltzmann_zero` | sig_not_dec, sig_forall_dec, functional_extensionality_dep |
| `C77_sde` | sig_not_dec, sig_forall_dec, functional_extensionality_dep |
| `C77_sde_fixed` | sig_forall_dec, functional_extensionality_dep |
| `C77_sde_online_refuted` | sig_forall_dec, functional_extensionality_dep |
| `C77_nfq` | sig_forall_dec, functional_extensionality_dep |
| `C77_nfq_end_refuted` | sig_forall_dec, functional_extensionality_dep |
| `C77_nfq_fixed` | sig_forall_dec, functional_extensionality_dep |
| `C77_nfq_converges` | sig_not_dec, sig_forall_dec, functional_extensionality_dep |
| `C77_no_module` | sig_not_dec, sig_forall_dec, functional_extensionality_dep |
| `C78_motion` | sig_not_dec, sig_forall_dec, functional_extensionality_dep |
| `C78_integer_division_refuted` | sig_not_dec, sig_forall_dec, functional_extensionality_dep |
| `C78_energy` | sig_not_dec, sig_forall_dec, functional_extensionality_dep, classic |
| `C78_rk4` | sig_forall_dec, functional_extensionality_dep |
| `C78_mirror` | sig_not_dec, sig_forall_dec, functional_extensionality_dep |
| `C78_shift` | sig_not_dec, sig_forall_dec, functional_extensionality_dep |
| `C78_rest` | sig_not_dec, sig_forall_dec, functional_extensionality_dep |
| `C78_force` | sig_forall_dec, functional_extensionality_dep |
| `C78_observation` | sig_not_dec, sig_forall_dec, functional_extensionality_dep |
| `C78_features` | sig_not_dec, sig_forall_dec, functional_extensionality_dep, classic |
| `C78_reward` | sig_forall_dec, functional_extensionality_dep |
| `C78_episode` | sig_not_dec, sig_forall_dec, functional_extensionality_dep |
| `C78_total` | sig_not_dec, sig_forall_dec, functional_extensionality_dep |
| `C78_mirrored_run` | sig_not_dec, sig_forall_dec, functional_extensionality_dep |
| `C78_late_refuted` | sig_forall_dec, functional_extensionality_dep |
| `C78_offtrack_refuted` | sig_not_dec, sig_forall_dec, functional_extensionality_dep |
| `C78_two_poles_refuted` | sig_not_dec, sig_forall_dec, functional_extensionality_dep |
| `C78_double_unobservable_refuted` | sig_not_dec, sig_forall_dec, functional_extensionality_dep |
| `C78_double_stale_refuted` | sig_not_dec, sig_forall_dec, functional_extensionality_dep |
| `C78_double_observed` | sig_forall_dec, functional_extensionality_dep |
| `C78_two_carts_refuted` | sig_not_dec, sig_forall_dec, functional_extensionality_dep |
| `C78_nonmarkov_refuted` | sig_not_dec, sig_forall_dec, functional_extensionality_dep |
| `C78_nonmarkov_double_refuted` | sig_not_dec, sig_forall_dec, functional_extensionality_dep |
| `C78_linear_refuted` | sig_forall_dec, functional_extensionality_dep |
| `C78_linear_reward_refuted` | sig_forall_dec, functional_extensionality_dep |
| `C78_glide` | sig_not_dec, sig_forall_dec, functional_extensionality_dep |
| `C78_start` | sig_forall_dec, functional_extensionality_dep |
| `C78_sensors` | sig_forall_dec |
| `C78_reset` | sig_forall_dec, functional_extensionality_dep |
| `C78_linear_finished` | sig_forall_dec, functional_extensionality_dep |
| `C78_again` | sig_not_dec, sig_forall_dec, functional_extensionality_dep |
| `C78_fresh` | sig_forall_dec, functional_extensionality_dep |
| `C78_features_angles` | sig_not_dec, sig_forall_dec, functional_extensionality_dep |
| `C78_length` | sig_forall_dec, functional_extensionality_dep |
| `C79_phases` | sig_forall_dec |
| `C79_evaluation_ends` | sig_forall_dec |
| `C79_reset_on_success_refuted` | sig_forall_dec |
| `C79_paid_again_refuted` | sig_forall_dec |
| `C79_car` | sig_not_dec, sig_forall_dec, functional_extensionality_dep |
| `C79_car_step` | sig_not_dec, sig_forall_dec, functional_extensionality_dep |
| `C79_arms_range` | sig_not_dec, sig_forall_dec, functional_extensionality_dep |
| `C79_arms_simulation` | sig_not_dec, sig_forall_dec, functional_extensionality_dep |
| `C79_coriolis_refuted` | sig_not_dec, sig_forall_dec, functional_extensionality_dep |
| `C79_height_refuted` | sig_not_dec, sig_forall_dec, functional_extensionality_dep |
| `C79_swinger_refuted` | sig_not_dec, sig_forall_dec, functional_extensionality_dep |
| `C79_minimize` | sig_forall_dec, functional_extensionality_dep |
| `C79_minimize_late_refuted` | sig_forall_dec, functional_extensionality_dep |
| `C79_reads_refuted` | sig_forall_dec, functional_extensionality_dep |
| `C79_noise_refuted` | sig_forall_dec, functional_extensionality_dep |
| `C79_ship` | sig_forall_dec, functional_extensionality_dep |
| `C79_ship_step` | sig_forall_dec, functional_extensionality_dep |
| `C79_drag_refuted` | sig_forall_dec, functional_extensionality_dep |
| `C79_arms_ends` | sig_not_dec, sig_forall_dec, functional_extensionality_dep |
| `C79_arms_worth` | sig_not_dec, sig_forall_dec, functional_extensionality_dep |
| `C79_arms_rest` | sig_not_dec, sig_forall_dec, functional_extensionality_dep |
| `C79_car_seen` | sig_not_dec, sig_forall_dec, functional_extensionality_dep |
| `C79_minimize_run` | sig_forall_dec, functional_extensionality_dep |
| `C79_minimize_paid` | sig_forall_dec, functional_extensionality_dep |
| `C79_ship_action` | sig_forall_dec, functional_extensionality_dep |
| `C79_ship_steering` | sig_forall_dec, functional_extensionality_dep |
| `C79_ship_heading` | sig_forall_dec, functional_extensionality_dep |
| `C79_ship_pays` | sig_forall_dec, functional_extensionality_dep |
| `C79_ship_sum` | sig_forall_dec, functional_extensionality_dep |
| `C79_inertia` | sig_not_dec, sig_forall_dec, functional_extensionality_dep |
| `C79_arms_pays` | sig_not_dec, sig_forall_dec, functional_extensionality_dep |
| `C79_ship_start` | sig_forall_dec, functional_extensionality_dep |
| `C80_gates` | sig_not_dec, sig_forall_dec, functional_extensionality_dep |
| `C80_gates_add_up_refuted` | sig_not_dec, sig_forall_dec, functional_extensionality_dep |
| `C81_map_winner` | sig_forall_dec, functional_extensionality_dep |
| `C81_full_map_refuted` | sig_forall_dec, functional_extensionality_dep |
| `C81_map_round` | sig_forall_dec, functional_extensionality_dep |
| `C81_map_converges` | sig_forall_dec, functional_extensionality_dep |
| `C81_map_box` | sig_forall_dec, functional_extensionality_dep |
| `C81_map_untrained` | sig_forall_dec, functional_extensionality_dep |
| `C81_seeds` | sig_forall_dec, functional_extensionality_dep |
| `C81_seeds_differ` | sig_forall_dec, functional_extensionality_dep |
| `C81_seeds_refuted` | sig_forall_dec, functional_extensionality_dep |
| `C81_buffet` | sig_forall_dec, functional_extensionality_dep |
| `C81_buffet_size` | sig_not_dec, sig_forall_dec, functional_extensionality_dep |
| `C81_buffet_chances` | sig_forall_dec, functional_extensionality_dep |
| `C81_components` | sig_forall_dec, functional_extensionality_dep |
| `C81_components_order_refuted` | sig_forall_dec, functional_extensionality_dep |
| `C81_components_none_refuted` | sig_forall_dec, functional_extensionality_dep |
| `C81_centered` | sig_forall_dec, functional_extensionality_dep |
| `C81_reduced` | sig_forall_dec, functional_extensionality_dep |
| `C83_block_combine` | sig_forall_dec |
| `C83_block_combine_refuted` | sig_forall_dec |
| `C83_fisher_blocks` | sig_forall_dec, functional_extensionality_dep |
| `C83_fisher_inverse` | sig_forall_dec, functional_extensionality_dep |
| `C83_gp_kernel` | sig_not_dec, sig_forall_dec, functional_extensionality_dep, classic |
| `C83_gp_mean` | sig_not_dec, sig_forall_dec, functional_extensionality_dep, classic |
| `C83_gp_solvable` | sig_not_dec, sig_forall_dec, functional_extensionality_dep, classic |
| `C83_gp_constant` | sig_not_dec, sig_forall_dec, functional_extensionality_dep, classic |
| `C83_gp_cov` | sig_not_dec, sig_forall_dec, functional_extensionality_dep |
| `C83_gp_history` | sig_not_dec, sig_forall_dec, functional_extensionality_dep |
| `C83_gp_fresh` | sig_not_dec, sig_forall_dec, functional_extensionality_dep |
| `C83_gp_new_fresh` | sig_not_dec, sig_forall_dec, functional_extensionality_dep |
| `C83_gp_stale_refuted` | sig_not_dec, sig_forall_dec, functional_extensionality_dep |
| `C83_gp_prior_refuted` | sig_not_dec, sig_forall_dec, functional_extensionality_dep |
| `C83_gp_untrained_refuted` | sig_not_dec, sig_forall_dec, functional_extensionality_dep |
| `C83_gp_test` | sig_not_dec, sig_forall_dec, functional_extensionality_dep |
| `C83_gp_avgdist` | sig_forall_dec, functional_extensionality_dep |
| `C83_gp_autonoise_refuted` | sig_not_dec, sig_forall_dec, functional_extensionality_dep |
| `C83_gp_auto_raises` | sig_not_dec, sig_forall_dec, functional_extensionality_dep |
| `C85_genome_shape` | sig_forall_dec |
| `C85_set_get` | sig_forall_dec |
| `C85_genome_determines` | sig_forall_dec |
| `C85_genome_place` | sig_forall_dec |
| `C85_output_matrix` | sig_forall_dec |
| `C85_washout` | sig_forall_dec |
| `C85_extrapolate` | sig_forall_dec |
| `C85_length` | sig_forall_dec |
| `C85_generate_on` | sig_forall_dec |
| `C85_washout_checks` | sig_forall_dec |
| `C85_buffer_scaled` | sig_forall_dec |
| `C85_buffer_refuted` | sig_forall_dec, functional_extensionality_dep |
| `C85_manipulate` | sig_forall_dec |
| `C85_filter` | sig_forall_dec |
| `C85_randomize` | sig_forall_dec, functional_extensionality_dep |
| `C85_mutate` | sig_forall_dec |
| `C85_mutate_none` | sig_forall_dec, functional_extensionality_dep |
| `C85_scaled` | sig_forall_dec, functional_extensionality_dep |
| `C86_sch_pareto` | sig_forall_dec, functional_extensionality_dep |
| `C86_fon_pareto` | sig_not_dec, sig_forall_dec, functional_extensionality_dep, classic |
| `C86_deb_pareto` | sig_forall_dec, functional_extensionality_dep |
| `C86_constdeb_pareto` | sig_forall_dec, functional_extensionality_dep |
| `C86_bnh_pareto` | sig_forall_dec, functional_extensionality_dep |
| `C86_bnh_redundant` | sig_forall_dec, functional_extensionality_dep |
| `C86_srn_optimal` | sig_forall_dec, functional_extensionality_dep |
| `C86_pol_best` | sig_not_dec, sig_forall_dec, functional_extensionality_dep |
| `C86_feasible` | sig_forall_dec, functional_extensionality_dep |
| `C86_tnk_symmetric` | sig_not_dec, sig_forall_dec, functional_extensionality_dep, classic |
| `C86_violation` | sig_forall_dec, functional_extensionality_dep |
| `C86_violation_refuted` | sig_forall_dec, functional_extensionality_dep |
| `C86_lj_energy` | sig_not_dec, sig_forall_dec, functional_extensionality_dep |
| `C86_lj_dimension` | sig_not_dec, sig_forall_dec, functional_extensionality_dep |
| `C86_lj_moved` | sig_not_dec, sig_forall_dec, functional_extensionality_dep |
| `C86_lj_renumbered` | sig_not_dec, sig_forall_dec, functional_extensionality_dep |
| `C86_lj_bound` | sig_not_dec, sig_forall_dec, functional_extensionality_dep |
| `C86_lj_table` | sig_not_dec, sig_forall_dec, functional_extensionality_dep, classic |
| `C87_resampler` | sig_forall_dec, functional_extensionality_dep |
| `C87_resample` | sig_forall_dec, functional_extensionality_dep |
| `C87_adapt` | sig_forall_dec, functional_extensionality_dep |
| `C87_rank_changes` | sig_forall_dec, functional_extensionality_dep |
| `C87_batch_one_refuted` | sig_forall_dec, functional_extensionality_dep |
| `C88_command` | sig_forall_dec, functional_extensionality_dep |
| `C88_score_refuted` | sig_not_dec, sig_forall_dec, functional_extensionality_dep |
| `C88_waypoint_refuted` | sig_not_dec, sig_forall_dec, functional_extensionality_dep |
| `C88_data` | sig_not_dec, sig_forall_dec, functional_extensionality_dep |
| `C88_point` | sig_not_dec, sig_forall_dec, functional_extensionality_dep |
| `C88_sent` | sig_not_dec, sig_forall_dec, functional_extensionality_dep |
| `C88_controller` | sig_forall_dec, functional_extensionality_dep |
| `C89_act` | sig_forall_dec |
| `C89_floor` | sig_not_dec, sig_forall_dec, functional_extensionality_dep |
| `C89_floor_reset` | sig_not_dec, sig_forall_dec, functional_extensionality_dep |
| `C89_bounce` | sig_forall_dec, functional_extensionality_dep |
| `C89_momentum` | sig_not_dec, sig_forall_dec, functional_extensionality_dep |
| `C89_middle` | sig_not_dec, sig_forall_dec, functional_extensionality_dep |
| `C89_free_fall` | sig_forall_dec, functional_extensionality_dep |
| `C89_rigid` | sig_not_dec, sig_forall_dec, functional_extensionality_dep |
| `C89_neutral` | sig_not_dec, sig_forall_dec, functional_extensionality_dep |
| `C89_reset_refuted` | sig_not_dec, sig_forall_dec, functional_extensionality_dep |
| `C89_new_refuted` | sig_not_dec, sig_forall_dec, functional_extensionality_dep |
| `C89_wanted` | sig_not_dec, sig_forall_dec, functional_extensionality_dep |
| `C89_scaled` | sig_forall_dec, functional_extensionality_dep |
| `C89_speed` | sig_forall_dec, functional_extensionality_dep |
| `C89_range` | sig_forall_dec, functional_extensionality_dep |
| `C89_reached` | sig_forall_dec, functional_extensionality_dep |
| `C89_windup_refuted` | sig_forall_dec, functional_extensionality_dep |
| `C89_pain` | sig_forall_dec, functional_extensionality_dep |
| `C89_walk` | sig_forall_dec, functional_extensionality_dep |
| `C89_jump` | sig_forall_dec, functional_extensionality_dep |
| `C89_contact` | sig_forall_dec, functional_extensionality_dep |
| `C89_height` | sig_forall_dec, functional_extensionality_dep |
| `C89_grow` | sig_not_dec, sig_forall_dec, functional_extensionality_dep |
| `C89_pull` | sig_not_dec, sig_forall_dec, functional_extensionality_dep |
| `C89_step` | sig_not_dec, sig_forall_dec, functional_extensionality_dep |
| `C89_distance` | sig_not_dec, sig_forall_dec, functional_extensionality_dep |
| `C89_grow_pays` | sig_forall_dec, functional_extensionality_dep |
| `C89_corners` | sig_not_dec, sig_forall_dec, functional_extensionality_dep |

These are the axioms of the standard library's real numbers (`ClassicalDedekindReals.sig_not_dec`, `ClassicalDedekindReals.sig_forall_dec`,
`FunctionalExtensionality.functional_extensionality_dep`) and `Classical_Prop.classic`, which `Rpower` and some lemmas on `exp` use.
No other library's axioms and none of our own are used.

## What is modelled

One row for each model file; the header of the file and the comments of its definitions give the lines and the simplifications.

| file | code and simplifications |
|---|---|
| `Agent_Model.v` | Model of the logging agents (rl/agents/logging.py, learning.py) and of the experiments that drive them (rl/experiments/experiment.py, episodic.py, queued.py) as sequences of calls on the agent. The history is the ReinforcementDataSet (datasets/reinforcement.py:8-29): a sequential data set (Sequential_Model.v) with the linked fields state, action and reward. What the module and the explorer answer (learning.py:45-56) is an argument of the call of getAction, so is the reward; observations and actions are arrays, which are never None. |
| `Arch_Model.v` | Model of the functions that generate network architectures: tools/shortcuts.py (buildNetwork), structure/networks/bidirectional.py, swiping.py and convolutional.py, with structure/moduleslice.py and modulemesh.py as far as they are needed. A construction is the list of calls of addModule and addConnection it makes, to be run by the network of Topo_Model. The class of a layer is given by its buffer sizes and its number of parameters as functions of its size. The generated names, which decide ties in the order, are a parameter. The fast (arac) networks and predefined weights are left out. |
| `Backprop_Model.v` | Model of supervised/trainers/backprop.py: BackpropTrainer.train and _calcDerivs. Numbers are an abstract commutative ring with a constant [half] for 0.5. The trainer is modelled twice: what _calcDerivs does to a network (its error, its ponderation and what it adds to the derivatives), and what train does with any functions of that kind. train returns errors / ponderation; the model returns the two numbers. The order in which shuffle leaves the sequences is an argument. Left out: verbosity, _checkGradient, testOnClassData; descent objects other than plain GradientDescent (rprop is in Descent_Model). |
| `Batches_Model.v` | Model of DataSet.batches / randomBatches (dataset.py:331-363), DataSet.copy (dataset.py:313-329, supervised.py:40-44) and SupervisedDataSet construction and splitting (supervised.py:17-38, 105-118). |
| `Board_Model.v` | Model of structure/networks/borderswiping.py, of the plain part of networks/custom/capturegame.py (componentclass other than MDLSTMLayer) and of networks/custom/convboard.py, and of the function these networks and those of swiping.py and convolutional.py compute. The connections of swiping.py and convolutional.py are those of Arch_Model. Here the meshes of inputs and outputs are views on a flat layer (modulemesh.py:31-42), as in multidimensional.py and capturegame.py. What a network computes is given by the equations of its modules: the input buffer of a module is the sum of what its connections deliver, its output buffer is the function of the layer of it. That one forward pass through the sorted modules yields a solution of these equations is C17 and C18. Parameters of mothers are an argument (they start random); names, predefined mothers other than those of the borders, networks read from XML, MDLSTM components and the unfinished parts of CaptureGameNetwork (combinputs, which raises AttributeError for componentOutdim of a layer) are left out. |
| `Capture_Model.v` | Model of rl/environments/twoplayergames/capturegame.py (CaptureGame). Dictionaries are functions to option (a lookup of an absent key raises KeyError, del of an absent key too); only lookups, updates and counts are observable. Sets of positions are duplicate-free lists. The board is n by n. |
| `Classic_Model.v` | Model of rl/environments/classic (mountaincar.py, acrobot.py, xor.py), rl/environments/simple (environment.py, tasks.py) and rl/environments/shipsteer (shipsteer.py without rendering, northwardtask.py). Numbers are exact reals; random draws are arguments. An attribute that need not exist yet is an option. Not modelled: the network connection and threads of the ship's viewer, renderers. |
| `Classification_Model.v` | Model of pybrain/datasets/classification.py (class ClassificationDataSet) and of pybrain/tools/datasettools.py:11-42. Values are integers: the class labels are, and nothing below computes with the inputs. |
| `Cluster_Model.v` | Model of clustering and reduction of data: structure/modules/kohonen.py, auxiliary/kmeans.py kinit, tools/ibp.py leftordered and generateIBP, auxiliary/pca.py makeCentered, the choice of the components in pca, and reduceDim. Numbers are exact reals. Random draws are arguments. norm(x) ** 2 is the sum of the squares. numpy before 1.12: slices take floats and cut them off. minimum_position is the first of the least in row-major order. The eigenvalues and eigenvectors are arguments; the eigenvalues are real (those of a covariance matrix are). Not modelled: kmeans2 of scipy, pPca, the error that Module.backward passes on (the map passes on none), testIBP, floats. |
| `Coevo_Model.v` | Model of optimization/populationbased/coevolution: Coevolution (coevolution.py), CompetitiveCoevolution (competitivecoevolution.py) and MultiPopulationCoevolution (multipopulationcoevolution.py). Individuals are objects: numbers that index the memory, which holds what an individual encodes (a parameter P of the model) and its attribute parent. Equality and hashing are by identity (no modelled class defines __eq__). mutate, randomize and the averaging of parameters are arguments. Every result of the random module comes from an unlimited stream of numbers d with a clock in the state: choice takes one, shuffle and sample as many as the list is long (every permutation and every sample is obtained for some stream). The order of list(set(...)) is such a permutation too. The relative evaluator sees the number of evaluations made before and the two players, so that it may be noisy. Scores and fitnesses are exact rationals. The subclasses import pybrain.optimization.coevolution.coevolution, a module that does not exist at this path; they are modelled as if the import named pybrain.optimization.populationbased.coevolution.coevolution. selectionProportion and hallOfFameEvaluation are not negative; the attribute parent only exists, and is only read, when parentChildAverage < 1. Not modelled: verbose output, __str__, setArgs; tournamentSize set back to None after the constructor (which replaces None). |
| `Copies_Model.v` | Copies that share structure. pybrain/structure/evolvables/cheaplycopiable.py:7-81 CheaplyCopiable pybrain/structure/evolvables/maskedmodule.py:7-29 MaskedModule pybrain/structure/evolvables/topology.py:32-43 TopologyEvolvable.copy pybrain/structure/parametercontainer.py:47-66,80-86 params, _setParameters, randomize, mutate The wrapped module is any module: what it remembers between calls (its buffers) is an abstract type. The arrays of parameters live on a heap, a copy holds the address of its own. Random numbers are arguments. Simplifications: exact numbers; an array of length 1 is not broadcast when it is written over a longer one (ValueError as for other lengths). |
| `Dataset_Model.v` | Model of pybrain/datasets/dataset.py (class DataSet) and of the part of pybrain/datasets/supervised.py that adds nothing but fixed field names. Simplifications, valid for the whole file: - a field is a two-dimensional array; rows are lists of an opaque value type [V] ([vzero] is the 0. that numpy puts into fresh rows); element types and casts are not modelled; - a dictionary is an association list with unique keys; - the lists handed to [linkFields] are copied (the code keeps the caller's list); - [vectorformat] only changes the presentation of rows, see C12. |
| `Decomp_Model.v` | Model of NeuronDecomposableNetwork (structure/networks/neurondecomposable.py): which parameter belongs to which neuron, and access to the parameters neuron by neuron. The containers are what _containerIterator yields after sorting (see Params_Model), the modules are in the iteration order of the network's set of modules. Not modelled: convertNormalNetwork, and that sortModules does nothing on a sorted network. |
| `Descent_Model.v` | Model of auxiliary/gradientdescent.py (GradientDescent). Arrays are lists of exact rationals. The gradient handed in is assumed to be an array already (asarray does not copy it), so the call also returns the caller's array as it is afterwards. Not modelled: NaturalGradient, IRpropPlus. |
| `Distrib_Model.v` | Model of the optimizers that adapt a search distribution (optimization/distributionbased): SNES (snes.py), exponential NES (xnes.py), CMA-ES (cmaes.py), FEM (fem.py) and the settings of Rank1NES (rank1.py), with the rankings they use (tools/rankingfunctions.py: rankedFitness, HansenRanking, TopLinearRanking) and the bookkeeping of optimizer.py that they read back (_allEvaluated, _allEvaluations, _wasOpposed). Numbers are exact reals. Arrays have the lengths that numpy would insist on. The draws of randn, rand, normal and multivariate_normal are arguments; a draw from multivariate_normal(mu, sigma) is mu plus a displacement. scipy's expm and numpy's eig are arguments. The evaluator sees the number of evaluations made so far (it may be noisy) and returns a number: nan and inf (DivergenceError, C29-C31) are not modelled here. Python's log, exp, sqrt, ** are the real functions; a division by zero does not occur where the theorems hold. Not modelled: importance mixing (xNES), the learning step of Rank1NES, and in FEM several centers (rejected by an assertion), sampleElitism, oneFifthRule, doMadnessUpdate, adaptiveShaping, densities that are nan. |
| `Duel_Model.v` | Model of rl/environments/twoplayergames/tasks: CaptureGameTask (capturetask.py), GomokuTask (gomokutask.py), PenteTask (pentetask.py), HandicapCaptureTask (handicaptask.py), RelativeCaptureTask (relativetask.py), RelativeGomokuTask (relativegomokutask.py), with the parts of rl/environments/episodic.py (EpisodicTask) and rl/experiments (Experiment._oneInteraction, EpisodicExperiment.doEpisodes) they run through. The game is given by its rules: the state after reset, the effect of performAction, the winner and movesDone. Colours are 1 (black) and -1 (white); the winner 0 stands for the string DRAW. Players are functions of the state of the world outside the game (their own state and the random numbers), the game and their attribute color; they may raise. newEpisode, integrateObservation and giveReward do not act on the game (Agent and the players leave them empty or reset a module, which getAction does as well). Numbers are exact rationals; int() of one rounds towards 0. For the handicap and the relative tasks the games are given by their results. Not modelled: verbose output, the choice and wrapping of the opponent in the constructors, setArgs. |
| `Errors_Model.v` | Model of the error measures: SupervisedDataSet.evaluateMSE, evaluateModuleMSE and _evaluateSequence (datasets/supervised.py:70-105), their overrides (datasets/sequential.py:175-189, datasets/importance.py:36-51), BackpropTrainer.testOnData and testOnClassData (supervised/trainers/backprop.py:133-186) and Validator, ModuleValidator, SequenceHelper and testOnSequenceData (tools/validation.py:13-236, 358-394). Numbers are rationals. A module is a state with [mreset] and [activate] (which returns a copy of the output); its outputs are as long as the targets. Sequential datasets are those of Sequential_Model.v, whose samples are [input; target] or [input; target; importance]; a SupervisedDataSet is the list of its samples. Division by the float zero of Python raises, by that of numpy gives nan or inf, here None. Not modelled: verbose output. |
| `EvoTrain_Model.v` | Model of the Evolino trainer (supervised/trainers/evolino.py), of what it inherits (supervised/trainers/trainer.py:15-37) and of the split of the sequences in EvolinoEvaluation (supervised/evolino/filter.py:36-42, 54-62). The population, with everything random about it, is an abstract type; the four filters are functions on it, the evaluation also yields its max_fitness. Fitness values are exact, [None] is -Infinity. Of a data set there are the dimensions and the sequences of targets; it is true in a boolean context when it has a sample. Numbers are rationals. The other settings of the trainer, the printing, and the evaluation of a network after the split are not modelled here (the filters themselves are Evolino_Model's). |
| `Evolino_Model.v` | Model of the populations of Evolino (supervised/evolino/gpopulation.py, population.py, individual.py) and of the operators on them (supervised/evolino/filter.py). A sub-individual is its identity (the counter of individual.py:43-44) with its genome; sets of objects are lists without repetition, in the order in which Python happens to iterate them. Fitness values are exact, [None] is -Infinity. The draws of randrange are a function from the number of the draw to a number, taken modulo the bound. Evaluating a network is a function of the combination of sub-individuals; the mutation is a function of the number of the child and its genome. |
| `Evonet_Model.v` | Model of the Evolino network (structure/modules/evolinonetwork.py) and of the genome filters (supervised/evolino/gfilter.py, variate.py). The recurrent network inside is a machine with a hidden state: from a state and an input it makes the next state, the output and the raw output of the hidden layer; the output layer's buffer is not read by the network itself (it has no outgoing connections). Numbers are reals. A washout value of the wrong size after the first makes numpy raise; this is not modelled (the theorems take values of one size). The connections into the LSTM layer are a list; in Python its order is that of [recurrentConns] and of a dictionary's values. |
| `Explorers_Model.v` | Model of exploration with discrete actions and of neuro-fitted Q-learning: rl/explorers/discrete (egreedy.py, boltzmann.py, discretesde.py, discrete.py), rl/explorers/explorer.py, rl/learners/valuebased/valuebased.py, rl/learners/valuebased/interface.py (ActionValueTable, ActionValueNetwork), rl/learners/valuebased/nfq.py, the methods explore and newEpisode of rl/learners/learner.py and getAction of rl/agents/learning.py. Numbers are exact reals. Random draws are arguments: u for random.random, i for randint and random.choice, noise for randn. A state is anything; the table reads a row number from it, the network an array. The network is a function of its parameters and its input, because a feed-forward network is reset before every activation (C17-C22). How the trainer fits the network to a data set is a function (C26-C28). numpy would read a negative row or action from the end; they are natural numbers here. Not modelled: float rounding, modules of other classes. |
| `FiniteDiff_Model.v` | Model of optimization/finitedifference: FiniteDifferences (fd.py), SimpleSPSA (spsa.py) and PGPE (pgpe.py), with GradientDescent without rprop (auxiliary/gradientdescent.py) and the best value kept by _oneEvaluation. Numbers are exact reals and never nan; random draws are arguments; scipy's pinv is an argument. `self.current` and `gd.values`, `sigList` and `gdSig.values` become the same array after the first step, but are never written to except by the descent, so they are kept as separate values. Not modelled: rprop (C27), the rest of the bookkeeping (C29). |
| `Flex_Model.v` | Model of the flexible cube: rl/environments/flexcube/environment.py, parts of sensors.py, and tasks.py without the target tasks. Numbers are exact reals. Positions and velocities are functions of the vertex (0..7) and the axis (0..2); the 64 x 1 matrices of the code are functions of the two vertices. Actions have twelve entries, one for each edge. Rendering and the sockets are not modelled; the sensors' copies are taken at the time they are read. |
| `Functions_Model.v` | Model of rl/environments/functions: the benchmark functions of unimodal.py, multimodal.py and unbounded.py and the transformations TranslateFunction, RotateFunction, SoftConstrainedFunction and the oscillation of the BBOB functions (transformations.py). Numbers are exact reals, arrays lists of them. Functions that write into their argument (x[:] of an array is a view) return the array as it is afterwards. Random matrices and signs are arguments. Not modelled: StepElliFunction, Schwefel20, Gallagher, LunacekBiRastrigin, Branin, lennardjones.py, bbob2010.py and the combination of the BBOB transformations. |
| `GA_Model.v` | Model of optimization/populationbased/ga.py (GA) and evolution.py (Evolution). An individual is its parameter array (list of rationals). The random outcomes of a generation are arguments: the two shuffles, the crossover points, the indices of the children sampled again and, for every child and coordinate, whether it is mutated and by how much. Not modelled: the unused crossOverOld / mutatedOld / old_jpq_mutated, storeAllPopulations. |
| `Games_Model.v` | Model of rl/environments/twoplayergames: gomoku.py and pente.py. A board is a function from positions (pairs of integers) to cells; the dictionary b of the code has exactly the in-range positions as keys, so a lookup outside raises KeyError where the code does not test the range first. Cell [Mark] is the 'x' or 'y' written by the winning (or losing) move. |
| `Gauss_Model.v` | Model of block matrices (utilities.py:592-607), of the Fisher information of a Gaussian (tools/fisher.py) and of Gaussian processes (auxiliary/gaussprocess.py). Numbers are exact reals; division by zero, which gives inf in numpy, has an unspecified value. An array with two axes is its two sizes and a function of two indices. scipy.linalg.inv, cholesky and solve are arguments. The grid of test points (gaussprocess.py:53-62) is an argument. Not modelled: plotting. |
| `Grid_Model.v` | Model of tools/gridsearch.py: GridSearch2D and GridSearchDOE. Performances are integers or rationals (only compared); [_validate] is a function of the parameters. The job order compares i/nr_c with j/nr_g in floats: [before i j] is that comparison, exact in [exact_before] and an argument elsewhere. |
| `LinearFA_Model.v` | Model of reinforcement learning with linear function approximation: the learners of rl/learners/valuebased/linearfa.py and the agent of rl/agents/linearfa.py (with logging.py, which it extends). Numbers are exact reals. Random draws are arguments: the ties of r_argmax, and the action that drawIndex picks (C52). Observations have num_features entries and actions are below num_actions (otherwise numpy raises). scipy's pinv2 is an argument. An agent's history is its list of episodes (C07, C43), the last one open. Attributes that only some learners have (traces, matrices, second weights) are kept for all of them. Not modelled: the print of learn, subclasses that the user writes. |
| `Lsh_Model.v` | Model of locality sensitive hashing (supervised/knn/lsh/minhash.py and nearoptimal.py). Arrays handed to MinHash are lists of integers, stored ones lists of booleans. Coordinates in MultiDimHash are exact rationals; the side length of the cubes, the squared radius, the balls of the grid and the projection, which __init__ computes with square roots, logarithms and random numbers, are parameters. Logging and the C version of the search for a ball are left out. |
| `Lstd_Model.v` | Model of reinforcement learning with a known model of the environment and linear features (rl/learners/modelbased/leastsquares.py). As in ModelBased_Model, vectors are lists, matrices are lists of rows and entries are exact rationals. Arrays with three axes are functions of their three indices. scipy.linalg.lstsq is an argument. The feature map has one row per feature and one column per state (this is what the code uses; its documentation says the opposite); where all states are used at once, a feature map with another number of columns raises ValueError in numpy, elsewhere the shapes are assumed to match. The states drawn by random.sample are an argument. |
| `Lstm_Model.v` | structure/modules/lstm.py: the LSTM layer with and without peepholes, run over a sequence the way a recurrent network runs its modules. Rows of buffers are functions of the offset, vectors are functions of the index. The statements of one call that write different parts of row [offset] are gathered into one row update: inside a call, only rows offset-1 and offset+1 are read besides the values just written. Buffers are as long as needed: RecurrentNetwork._forward grows all of them until offset+1 is a valid row (networks/recurrent.py:63-69). The transfer functions f, g, h and their primes are parameters. |
| `Masked_Model.v` | Model of MaskedParameters (structure/evolvables/maskedparameters.py) and of the copying of TopologyEvolvable (structure/evolvables/topology.py:32-40), which lets copies share one parameter container. All random draws are arguments: bits for the comparisons with a probability, lists of positions for sample() and for int(random()*n), numbers for randn and gauss. |
| `Maze_Model.v` | Model of the mazes (rl/environments/mazes/maze.py, polarmaze.py), of the tasks on them (tasks/mdp.py, tasks/maze.py, tasks/pomdp.py, tasks/tmaze.py, tasks/maze4x3.py), of tasks/tiger.py and of the accumulation of rewards in rl/environments/episodic.py. Coordinates are integers and the table is read as numpy reads it: a negative index counts from the end. The outcome of random() is a rational, that of choice(l) a number taken modulo the length of l; both are arguments. |
| `Mdlstm_Model.v` | structure/modules/mdlstm.py: the multi-dimensional LSTM layer. It keeps no state of its own between steps: previous states come in and the current state goes out through the last inputs and outputs, so it is a layer in the sense of Net_Model once the peephole weights are fixed. The buffers of row [offset] that the backward pass reads are those the forward pass computed from the same input row (modules run forward at an offset before they run backward at it), so they appear as functions of that row. |
| `Mdrnn_Model.v` | Model of what the multi-dimensional networks are put together from: structure/moduleslice.py and the slices of structure/connections/connection.py, structure/modules/mdrnnlayer.py (sizes and the views on the parameters), structure/networks/mdrnn.py (sizes, swipes, the permutation connections), utilities.py permuteToBlocks, permuteToBlocks2d and permuteToBlocks3d, and the buffers of the layers of structure/modules/gate.py. Divisions of integers are exact floors; [j_true] is permuteToBlocks2d's index where / divides truly. Arrays are lists. Indices that numpy would read from the end do not occur. Not modelled: the compiled networks of arac which compute an MdrnnLayer; names. |
| `Memetic_Model.v` | Memetic search: topology search interleaved with local search. pybrain/optimization/memetic/memetic.py MemeticSearch pybrain/optimization/memetic/inversememetic.py InverseMemeticSearch pybrain/optimization/randomsearch.py WeightMaskGuessing pybrain/optimization/hillclimber.py HillClimber (as the outer and the local search) pybrain/optimization/optimizer.py TopologyOptimizer, and of BlackBoxOptimizer what they use The start is an array (or a parameter container), so the individuals are MaskedParameters around one shared container (Masked_Model.v); the evaluator sees the parameters of that container. Exceptions keep the state reached: [Div] is DivergenceError, [Assert] the AssertionError of memetic.py:44. [mutate] and [topologyMutate] are class attributes that [switchMutations] exchanges for the whole process: [swapped]. Simplifications: rationals; evaluatorIsNoisy is False; localSearch is HillClimber without further arguments; random mutations are functions of a counter. |
| `Mixing_Model.v` | Model of importance mixing (auxiliary/importancemixing.py:8-32). The densities are functions to exact numbers, dividing by a density that is 0 raises (as for Python's floats). The draws of uniform(0, 1) for the old points are a list, those of uniform and newdistr for the new points a list of pairs: the run consumes as many as it needs, [OutOfFuel] means that it would draw on. |
| `Mixture_Model.v` | Model of structure/modules/mixturedensity.py (MixtureDensityLayer) and of supervised/trainers/mixturedensity.py (gaussian, BackpropTrainerMix._calcDerivs) over the real numbers. K is the number of Gaussians (mix), D the dimension of the target; vectors are functions of the index. Positions of a layer with K * (D + 2) units: mixing coefficients from 0, deviations from K, the mean of Gaussian k from 2 * K + k * D. The outputs of the network at the times of the sequence are an argument of the trainer, as are the targets; a target sample has no importance (with one, the two-element unpacking raises). In exact arithmetic no exponential is 0, so that the sum of the gammas is not 0; for deviations that underflow the code would divide by zero. Not modelled: setData, RPropMinusTrainerMix (which takes this _calcDerivs and the rest of RPropMinusTrainer). |
| `ModelBased_Model.v` | Model of reinforcement learning with a known model of the environment (rl/learners/modelbased/policyiteration.py). Vectors are lists, matrices are lists of rows, entries are exact; the operations of numpy are written entry by entry and the arrays are assumed to have matching shapes (numpy would raise ValueError). The transition matrices are arrays of floats: for arrays of integers zeros_like (line 69) makes an integer array. |
| `MooGA_Model.v` | Model of a generation of the multi-objective genetic algorithms (optimization/populationbased/multiobjective/nsga2.py:26-56 and constnsga2.py:27-61, which differ in the front they ask for) with what optimizer.py:154-156, 225-251 keeps for vectors. An individual is the number of its tuple: equal tuples are the same number. An evaluation may be noisy: it is a function of how many there were before. The front is a function of the items with their fitness values; the set it returns is a list in some order. The populations are handed in, one for each generation, so that select, crossover and mutation are arbitrary. For fitness vectors _oneEvaluation only counts. storeAllPopulations is not modelled. |
| `Moo_Model.v` | Model of the multi-objective benchmark functions (rl/environments/functions/multiobjective.py) and of the Lennard-Jones clusters (rl/environments/functions/lennardjones.py). Numbers are reals. A function of two arguments takes a pair, that of six a list of six; arrays are taken to have the declared xdim, except for Lennard-Jones. Two atoms at the same place have an infinite value in numpy; here the inverse of zero is some real number. Kursawe's function, the objectives of Osyczka and Kundu's and Tanaka's and _exampleConfig are not modelled. |
| `NestedParams_Model.v` | Model of the parameter arrays of networks inside networks: pybrain/structure/parametercontainer.py and networks/network.py. The containers form trees: a leaf is a connection or module with parameters, a net has its containers as children. Every node has a view (array, offset, length) of the heap, as numpy slices do, and a flag "owned": its owner attribute is its parent (otherwise it is None). The children are listed in the order in which _containerIterator yields them. Derivatives are handled in the same way by the code and are not repeated. |
| `Nested_Model.v` | Model of feed-forward networks that contain feed-forward networks as modules (structure/networks/network.py, feedforward.py, structure/modules/module.py): Network is a Module, so addModule accepts a network, and forward, backward and reset recurse. A module is named by its path from the outermost network (innermost number first). Feed-forward networks never move their offset, so every buffer is its row 0. The sorted order of every network, its connections and its input and output modules are given, as in Net_Model; inner networks have been sorted before they were added (see NestedParams_Model for what happens to the parameters otherwise). |
| `Net_Model.v` | Model of the forward and backward passes: structure/modules/module.py, the neuron layers, structure/connections/*.py, networks/feedforward.py, networks/recurrent.py. Numbers are an abstract commutative ring. An array of length n is a function on indices that is only looked at below n; slices outside an array (which numpy would cut) are excluded by the well-formedness hypothesis of the theorems. Module buffers are indexed by module and time offset, as in the code. The network's own buffers, which are overwritten completely by every call, are the arguments and results. Modules with a memory of their own are in Lstm_Model and Mdlstm_Model, networks nested as modules in Nested_Model; state dependent exploration is not modelled. |
| `Nondom_Model.v` | Model of tools/nondominated.py and of the NSGA-II selection (optimization/populationbased/multiobjective/nsga2.py, constnsga2.py). Items are elements of a type with decidable equality (tuples in pybrain), keys are vectors of integers: only the order of the objective values matters, except in the crowding distance, whose quotients are exact rationals here. Python sets are lists without duplicates; wherever a set is iterated or turned into a list, [ord] (an argument, any permutation in the theorems) gives the order. [py3] says whether / on two ints is Python 3's true division. |
| `Opt_Model.v` | Model of optimization/optimizer.py (BlackBoxOptimizer) for scalar fitness values. X is the type of evaluables. An evaluator may be noisy: its result depends on the number of evaluations done so far as well as on the evaluable; [Bad] is nan or inf. What a concrete algorithm does in _additionalInit or _learnStep is a program that asks for evaluations one after the other and may use the results ([prog]); it may also raise. Not modelled: vector-valued fitnesses, constraints, wrapping of arrays, listeners. |
| `Params_Model.v` | Model of the parameter (and derivative) arrays of a network and its components: pybrain/structure/parametercontainer.py and networks/network.py. Arrays live in a heap, a container holds a view (array, offset, length), as numpy slices do. Parameters and derivatives are two independent instances of one "field"; a container is a module, connection or mother connection with parameters. Networks inside networks are in NestedParams_Model. |
| `Players_Model.v` | Model of the players of rl/environments/twoplayergames: capturegameplayers (randomplayer.py, nonsuicide.py, killing.py, moduledecision.py), gomokuplayers (randomplayer.py, killing.py, moduledecision.py), playToTheEnd of the two games, and drawGibbs of utilities.py. Random numbers are arguments: i for random.choice (the i-th element, counted cyclically), r for random.random. getAction returns [self.color, position]; only the position is kept. The module is a function of its input, because it is reset before every activation. Numbers are exact reals. Not modelled: the client of an external player (clientwrapper.py), the print statements of _legalizeIt. |
| `Poles_Model.v` | Model of rl/environments/cartpole: CartPoleEnvironment and CartPoleLinEnvironment (cartpole.py), DoublePoleEnvironment (doublepole.py), NonMarkovPoleEnvironment (nonmarkovpole.py), NonMarkovDoublePoleEnvironment (nonmarkovdoublepole.py) and the tasks of balancetask.py, with the parts of rl/environments/task.py and episodic.py they run through (default settings: clipping on, discount None). Numbers are exact reals. matplotlib.mlab.rk4 is the classical Runge-Kutta step. Random draws are arguments. A state of the simulation is the tuple (theta, theta', s, s'). 4 / 3 of cartpole.py:87 is an argument: true division gives 4/3, division of integers 1. Not modelled: rendering and delays, the compiled version (fast_version). |
| `PolicyGrad_Model.v` | Model of the policy gradient learners: rl/learners/directsearch/policygradient.py, reinforce.py and enac.py, the agent (rl/agents/learning.py, logging.py) that feeds them, the explorers rl/explorers/continuous/normal.py and sde.py, the layers structure/modules/gaussianlayer.py and statedependentlayer.py, and expln, explnPrime of tools/functions.py. Numbers are exact reals; a normal draw with mean m and deviation s is m + s * z for a number z handed in. The controller is a feed-forward network (which clears its buffers whenever it is activated): a function [F] from parameters and observation to the action, and [VJP] for what its backward pass adds to its derivatives. 0/0 is nan, written None; once a parameter is nan the run is not followed further. pinv is a parameter. Not modelled: GPOMDP (marked as not working), momentum and rprop in the learner's gradient descent (their defaults are off), replacing module or explorer in the middle of a run. |
| `Pso_Model.v` | Model of optimization/populationbased/pso.py (ParticleSwarmOptimizer). Positions are lists over any ring; fitness values any type with a comparison; the start positions and the two uniform draws per particle and step are arguments. Particles are referred to by their number. A position is an array that is moved in place, and `best(...).position` is that array itself. Not modelled: the bookkeeping of the optimizer (C29), the drawing of the start positions. |
| `Ranking_Model.v` | Model of tools/rankingfunctions.py. Fitnesses are integers (only their order matters for ranks); the rescaled rankings are exact rationals, with [None] for numpy's nan (0/0). |
| `Rbm_Model.v` | Restricted Boltzmann machines and their contrastive divergence trainers. pybrain/structure/networks/rbm.py Rbm (whole file) pybrain/unsupervised/trainers/rbm.py RbmGibbsTrainer, RbmBernoulliTrainer, RbmGaussTrainer pybrain/unsupervised/trainers/deepbelief.py DeepBeliefTrainer.iterRbms, train (control flow only) pybrain/structure/modules/samplelayer.py BernoulliLayer Simplifications: real numbers for floats; an activation [Rbm.activate] is computed directly from the two FullConnections that feed the sigmoid layer (the general network semantics is Net_Model.v); random draws and the freshly initialised visible biases of an inverted machine are arguments; the batches are an argument (DataSet.randomBatches is Batches_Model.v). |
| `Scaling_Model.v` | Model of the scaling of sensors and actors (rl/environments/task.py). Values are exact rationals; limits are pairs, None disables the scaling of one value. [self.clipping] is [clipping]. |
| `Search_Model.v` | Model of universal search (rl/learners/meta/levinsearch.py) and of the simple race environment, task and controller (rl/environments/simplerace/). The generator is a function from positions to the programs with their complexities (None: StopIteration); running a program gives whether its result equals True, or None when it never returns (DivergenceError for the search). Loops without an end take fuel. For the race the server's messages are arguments, already split and their numbers read (under Python 3 string.split does not exist and the socket takes bytes; the model follows Python 2); printing is left out. |
| `Sequential_Model.v` | Model of pybrain/datasets/sequential.py (class SequentialDataSet). The linked fields are a [ds V]; the field 'sequence_index', whose entries are row numbers, is kept beside it as a [ds nat] with that single field (in the code it is one more, unlinked field of the same dictionary; numpy stores its entries as floats, which are used as indices after truncation). Sequence numbers given by the caller are non-negative. |
| `Tasks_Model.v` | Model of the remaining maze tasks: rl/environments/mazes/tasks/shuttle.py, cheesemaze.py, maze4x3.py, maze89state.py, the trivial maze of tasks/maze.py, and of the drawing of a maze (maze.py:99-113). The mazes are those of Maze_Model. The classes are taken with their own attributes (setArgs is not used). The outcomes of random() and choice() are arguments. |
| `Tools_Model.v` | Model of small tools: tools/svmdata.py (reading sparse and raw data), tools/aptativeresampling.py, tools/filehandling.py (choosing file names) and tools/kwargsprocessor.py. Lines are given already split and their numbers read; values are rationals (reals for the resampler, whose medians are arguments); strings are lists of character codes; the order of os.listdir is an argument. |
| `Topo_Model.v` | Model of the module ordering of pybrain/structure/networks/network.py. A module is a natural number (its identity); [name] gives the rank of its name in the order of strings. A set of modules is a list without repetitions, in the order in which Python happens to iterate over it. |
| `Tournament_Model.v` | Model of tournaments (rl/experiments/tournament.py). Agents are natural numbers (their identity). The game is any machine: an initial state, a test for the end, the winner (a colour, or the string 'draw'), the effect and the legality of a move (player's colour, action). What an agent answers is any function of the agent, its colour, the state of the game and the number of answers given so far by all agents, which covers agents with memory and random agents. A game that never ends is cut by the fuel. |
| `Training_Model.v` | Model of BackpropTrainer.trainUntilConvergence (supervised/trainers/backprop.py:188-260) and of CrossValidator.validate (tools/validation.py:284-334). For the former, one epoch of training is any function of the parameters and the number of the epoch, and so is the error it reports; the validation error is any function of the parameters, rnd is round(., convergence_threshold). Not modelled: the splitting of the dataset (see C06), nan results (which raise), verbosity. |
| `Utilities_Model.v` | Model of functions of pybrain/utilities.py. |
| `Value_Model.v` | Model of tabular value-based learning: the table (structure/modules/table.py, rl/learners/valuebased/interface.py:29-63) and the learners Q, SARSA and QLambda (rl/learners/valuebased/q.py, sarsa.py, qlambda.py). States and actions are natural numbers (a negative number would index from the end, as in numpy); values and rewards are exact. The draws of random.choice are a function from the number of the draw to a number, taken modulo the number of alternatives. |
| `Xml_Model.v` | Model of tools/customxml/networkwriter.py, networkreader.py and handling.py: networks as XML trees. Every object has an identity (a number); reading makes new ones. A module is a component with its class, its recorded arguments (the argdict of utilities.py:134-143) and its parameters, or a network of modules. Left out: the text of the XML file (trees are written and parsed without loss), the text of parameter lists (str of a list of floats is exact), the import of classes. What a class does is given by: [sig], the keyword arguments its constructor takes; [short], its __name__; [initial], the parts a constructor of a network makes by itself. |
| `Layers_R.v` | The neuron layers over the real numbers: tools/functions.py and the layers whose backward pass is (or is not) the transposed derivative. C18, C23. |

## What is not modelled

Nothing in the list below is covered by any theorem, except where a theorem
quantifies over it as an arbitrary function (module functions, evaluators, game
machines, random draws).

* Floating point: rounding, overflow, nan and infinities, except where a model
  says otherwise (`None` for nan in the rankings, `Bad` in the optimizer).
* numpy beyond the operations used: dtypes, casts, memory layout, broadcasting errors.
* SVM units and SVM training. LSTM layers are modelled on their own (C58), not inside the passes
  of a recurrent network; the recurrent network inside an Evolino network is an arbitrary state machine (C85);
  recurrent networks are not modelled as modules of others (feed-forward ones are, C59 and C60).
* `arac` (the C++ back end), `rlgluebridge`, sockets (the messages of the simple race are arguments, C88), plotting,
  renderers, the ODE environments, the target tasks and the sensors Target and Time of the flexible cube, the compiled
  cart-pole, file formats other than the network XML tree and the data readers of C87.
* The search steps of the distribution-based optimizers outside C68 (VES, exact NES, the
  step of Rank1NES, the optional parts of FEM), Nelder-Mead, GPOMDP (which reads an attribute ds that no learner has) and reward weighted regression,
  scipy's kmeans2 and eig, pPca.
* `BBOBTransformationFunction`, Kursawe's function, Osyczka and Kundu's and Tanaka's objectives (Tanaka's constraints are modelled, C86).
* Concurrency (there is none in the modelled code), performance, memory use.
* networks/custom/capturegame.py: MDLSTM cells in the mesh, `combinputs` (line 102 asks a LinearLayer for componentOutdim, which it does not have), resizeTo and the cut of parameters it does.
* unsupervised/trainers/deepbelief.py: only which exception ends `train` (C72); what the layers learn before that is RbmGibbsTrainer's.
* supervised/evolino/networkwrapper.py, the mixture-of-Gaussians modules and tools/neuralnets.py.

## Properties

| id | title | proved in | theorems | remarks |
|---|---|---|---|---|
| C01 | A linked dataset is the list of samples added to it | `Dataset_Props.v` | 4 | refinement for every session; negative read positions are refuted |
| C02 | A rejected sample does not desynchronise the dataset - only when its first field is the one rejected | `Dataset_Props.v` | 2 | exact effect of a refused sample; atomicity refuted |
| C03 | Length of an unlinked dataset | `Dataset_Props.v` | 2 | documented 'longest field' refuted |
| C04 | Converting a field's type keeps its rows - unless the buffer has spare capacity | `Dataset_Props.v` | 3 | length after conversion is the buffer capacity; sync refuted |
| C05 | Batches partition the data | `Dataset_Props.v` | 2 |  |
| C06 | Splitting a supervised dataset loses and duplicates nothing | `Dataset_Props.v` | 1 | proportion is an exact fraction |
| C07 | A sequential dataset is a list of sequences | `Sequential_Props.v` | 1 | refinement to a list of sequences for every session of the modelled operations; sequence numbers are non-negative |
| C08 | Splitting a sequential dataset keeps whole sequences | `Sequential_Props.v` | 1 | holds for every drawn index list and every reachable dataset |
| C09 | One-of-many target encoding round trip | `Classification_Props.v` | 4 | exact encoding for non-negative targets below nClasses; negative targets and gaps refuted |
| C10 | Splitting by class partitions the samples - only if the class field is up to date | `Classification_Props.v` | 4 | samples added after the last assignClasses are lost (refuted); assignClasses repairs it |
| C11 | Windowing a sequential dataset | `Classification_Props.v` | 4 | windows returned are exact; the documented coverage of the final window and the last sequence is refuted |
| C12 | Copies of a dataset | `Dataset_Props.v` | 2 | vector format loss for subclasses refuted; deep copy independence holds by construction of the value model |
| C13 | Module ordering is a topological order or an error | `Topo_Props.v` | 2 | Kahn-style sort with the pybrain tie-breaking modelled on insertion-ordered dictionaries; order is a topological permutation, cycles and missing modules raise. |
| C14 | Module ordering is reproducible | `Topo_Props.v` | 4 | Result does not depend on dict iteration or building order when names are distinct; refuted for equal names and for connection order. |
| C15 | The network parameter vector is exactly its components' parameters | `Params_Props.v` | 6 | Heap of arrays with numpy-style views; refinement to lists for every legal session. Networks inside networks: C60. |
| C16 | Copying a network | `Params_Props.v` | 3 | Deep copy of views; independence for every interleaving; derivs disconnection proved and witnessed. |
| C17 | Feed-forward activation computes the network function | `Net_Props.v` | 2 |  |
| C18 | Back-propagation computes the exact gradient | `Net_Gradient_Props.v` | 6 | Over the stdlib reals (Print Assumptions lists sig_not_dec, sig_forall_dec, functional_extensionality_dep, as for all Reals theorems). Feed-forward and through time; sigmoid beyond +-500 and softmax's backward refuted. |
| C19 | Calling backActivate twice | `Net_Gradient_Props.v` | 2 | Exact description of what the second call computes, for layers that overwrite their input error; sameness refuted on a concrete net. |
| C20 | Connections: backward is the transpose of forward | `Conn_Props.v` | 5 | Over any commutative ring; exact iff for permutations, extra terms for FullNotSelf, zero derivatives for Linear. Subsampling connection not modelled (its backward raises). |
| C21 | Recurrent activation is the recurrence | `Net_Props.v` | 3 |  |
| C22 | The forgetful mode of a recurrent network does not change its outputs | `Net_Props.v` | 2 |  |
| C23 | Softmax outputs are a probability distribution | `Net_Gradient_Props.v` | 2 | Exact real arithmetic with the clipping at +-500; PartialSoftmax is shown not normalised. |
| C24 | Neuron-wise parameter decomposition | `Decomp_Props.v` | 7 | Proved: partition, attribution (well-formed networks of plain and LSTM layers, both styles), and both round trips. Refuted: peephole LSTM layers and gate layers make sortModules raise KeyError, and weights of sliced connections are attributed to the wrong neurons. |
| C25 | Masked parameters stay within their complexity budget | `Masked_Props.v` | 8 | Proved for every history of every object sharing a container, with maxComplexity >= 1. Refuted: a budget of zero is not kept, set(get) is not the identity with returnZeros, and copies overwrite each other's container. |
| C26 | Early-stopping training keeps the best epoch it saw | `Training_Props.v` | 7 | Proved: the parameters left in the module are those of the first epoch with the least validation error among the epochs trained, the loop stops at the first epoch where maxEpochs or the window test says so, and terminates whenever maxEpochs is given. Refuted parts of the documentation: m+1 epochs are trained, better initial parameters are discarded, the returned validation errors stop before the best one, and the convergence test accepts differences that cancel. |
| C27 | RPROP step sizes stay in their range | `Descent_Props.v` | 6 | Proved for every gradient history; two refuted readings record that the caller's gradient array is overwritten and that the first step is not the configured initial step size. |
| C28 | Cross-validation folds | `Training_Props.v` | 4 | Proved for every permutation and 2 <= n < number of samples; refuted: n equal to the number of samples (leave one out) is refused by an assertion and n = 1 raises ValueError. |
| C29 | Black-box optimizers report the best evaluation they made | `Opt_Props.v` | 9 | scalar fitness; any algorithm as a program of evaluations; budget overshoot (noisy ES), maxLearningSteps off by one and StochasticHillClimber's best refuted |
| C30 | Setting the evaluator keeps best individual and best fitness together - except after initial population evaluation | `Opt_Props.v` | 3 | pair is consistent iff initialisation evaluates only the start point; ES initialisation refuted; recovery proved |
| C31 | Direction of optimisation | `Opt_Props.v` | 4 | every sequence of minimize/setEvaluator; second evaluator and late switch refuted |
| C32 | Genetic algorithm keeps its population well-formed | `GA_Props.v` | 8 | at least two selected parents and an elite smaller than the population; single parent, full elite and out-of-bounds start refuted; noise and shuffles are arguments |
| C33 | Non-dominated front | `Nondom_Props.v` | 6 | All four implementations, any set iteration order. Objectives are minimised. C33_python3_refuted: the default implementation raises TypeError on Python 3 beyond 100 items. Objective vectors are integers (only their order matters). |
| C34 | Non-dominated sorting and NSGA-II selection | `Nondom_Props.v` | 5 | nsga2select may also fail: C34_crowding_division_refuted (Python numbers; numpy scalars give nan instead). The crowding theorem needs at least 2*dim survivors of the cut front. |
| C35 | Rank-based fitness | `Ranking_Props.v` | 9 | Hansen ranking over the reals (standard library axioms of R). C35_tournament_refuted and the two nan theorems state where the code violates its documentation. |
| C36 | Capture game follows the rules of atari-go | `Capture_Props.v` | 5 | Proved for every board size, both suicide settings and every sequence of moves; groups/liberties also for set-up positions (handicap, random boards). |
| C37 | Gomoku ends exactly on five in a row | `Games_Props.v` | 5 | Proved for games of legal moves on any board of at least 5x5 and any colour sequence. Two refuted theorems record that illegal attempts are counted as moves, so draws can be declared early or missed. |
| C38 | Pente captures | `Games_Props.v` | 3 | Proved for every reachable undecided position and legal move. The refuted theorem records that a move winning by captures neither removes nor counts the captured stones. |
| C39 | Tabular Q-learning and SARSA updates | `Value_Props.v` | 9 | Proved for Q and SARSA, every history and table: the learned table is the left-to-right fold of the one-step backups, every update is total on in-range histories and values stay within the reward bound. Refuted: the last reward of an episode is never used, Q(lambda) carries traces across episode boundaries and truncates rewards; non-batch learning never changes the table. |
| C40 | Maze agent never enters a wall | `Maze_Props.v` | 10 | Proved for every enclosed maze, plain and turning (PolarMaze), every operation sequence and random outcome. Sharper than stated: the MDP observation is injective on free cells up to two more columns than rows, and confuses two inner cells from three more on. Refuted: without a border the agent walks off the grid through negative indices. |
| C41 | Task scaling | `Scaling_Props.v` | 7 | Proved over exact rationals for all limits with lower < upper. Refuted: normalize drops the clipped result, so every out-of-range sensor is reported outside [-1,1]; equal limits raise ZeroDivisionError. |
| C42 | Tournament bookkeeping | `Tournament_Props.v` | 7 | Proved for every game machine, agents' behaviour and pool; ELO for every positive power function. Refuted: drawn games are recorded as wins of the second player. Asking twice for the ratings counts the games twice (C42_elo_direction). |
| C43 | Logging agent protocol | `Agent_Props.v` | 3 | Refinement of the agent to a three-phase protocol over lists of episodes for every sequence of calls (rows of the declared sizes). The part 'accepts exactly the cyclic order' is false for observations: they are accepted at any time (C43_observation_any_time_refuted); actions and rewards are accepted exactly in order (C43_order). |
| C44 | Model-based evaluation and greedy policies | `ModelBased_Props.v` | 14 | All of it, for exact entries; in addition the distance of trueValues to the exact values (at most g^horizon, less than a thousandth, C44_precision; it is not the fixed point, C44_true_values_refuted), policy improvement and optimality of what policy iteration returns with an exact evaluator and enough iterations (at most 1000 actions, C44_policy_iteration_optimal). randomDeterministic always raises TypeError (C44_random_deterministic_refuted). |
| C45 | Gray code round trip | `Utilities_Props.v` | 4 | bijection for every size; a too small size refuted |
| C46 | Enumerating coordinate tuples | `Utilities_Props.v` | 3 | the empty tuple refuted |
| C47 | Triangular matrix packing | `Utilities_Props.v` | 2 | square matrices of any dimension over any entries |
| C48 | Flood fill computes the reachable set | `Utilities_Props.v` | 4 | fuel bounds the while loop and is shown sufficient; relevant=[] refuted |
| C49 | Grid search covers the grid exactly once | `Grid_Props.v` | 6 | Axes abstract (any type) for the 2D search; DOE over exact rationals, validate depends only on the values. |
| C50 | Importance mixing keeps the batch size | `Mixing_Props.v` | 5 | Completed runs keep the number of points, indices strictly increasing and valid, at least one new point from two points on; density identity. Without forced refresh and with an unchanged distribution the run never ends (C50_no_refresh_refuted); a single point may be reused (C50_single_refuted). |
| C51 | Evolino populations | `Evolino_Props.v` | 10 | Proved for populations of equal size. Refuted parts: unequal sizes raise ValueError; nParents equal to the population size removes everyone ([-0:]); default selection from fewer than four followed by reproduction never ends; burst mutation of a one-member subpopulation never ends. |
| C52 | Weighted random choice | `Utilities_Props.v` | 6 | exact rationals; the draw is an argument; zero-weight fall-back refuted |
| C53 | Hashing for nearest neighbours | `Lsh_Props.v` | 7 | MinHash and MultiDimHash. A stored vector of zeros and ones is always found; queries with other numbers are hashed differently (C53_other_values_refuted). MultiDimHash above dimension 24 cannot be filled (C53_projection_refuted). |
| C54 | Generated architectures are valid | `Arch_Props.v`, `Arch_Props2.v`, `Arch_Props3.v` | 8 | Connections, sizes, order and parameter counts of buildNetwork, BidirectionalNetwork, SwipingNetwork and ConvolutionalBoardNetwork for all sizes; refuted where sequences of one item, whole-board windows or LSTM networks without exactly one hidden layer are refused. |
| C55 | Saving and loading a network | `Xml_Props.v` | 11 | Any savable network (nested, recurrent, with shared weights) is read back the same up to the identity of its objects and the order of its module and mother lists, whatever clean readings happened before; files by index and by name. Savable asks that no module is both input and output, that names of inner modules are pairwise different and that arguments are plain values the constructors take. The _refuted theorems show each of these is needed: role lost, rewired or unsortable with equal names, mothers of one name merged, class-valued arguments, GaussianLayer, forget, constructors that build their own modules, stale class-level registries. |
| C56 | Episodic returns | `Maze_Props.v` | 6 | Proved for MazeTask with exact rewards; T-maze (any length), tiger and 4x3 maze deviations are recorded as refuted readings. |
| C57 | Experiments and the history they leave | `Agent_Props.v` | 3 | Histories are windows of the list of all episodes. An episode without a step makes the next newEpisode raise EmptySequenceError (C57_empty_episode_refuted). |
| C58 | LSTM layers are back-propagated exactly | `Lstm_Props.v`, `Mdlstm_Props.v` | 6 | Real arithmetic; f, g, h are the sigmoid (with the clipping of safeExp) and tanh. Buffer growth is not modelled (rows exist whenever read, as RecurrentNetwork guarantees). C58_without_reset_refuted shows the stale error rows with integer transfer functions. |
| C59 | Networks inside networks | `Nested_Props.v` | 3 | Over R for differentiable layers; activation over any commutative ring. Inner networks are sorted before they are added; recurrent networks as inner modules are not covered. |
| C60 | Parameters of networks inside networks | `NestedParams_Props.v` | 10 | Heap of arrays with numpy-style views, trees of containers. Derivatives are laid out the same way and not repeated. Shared connections count as one component (the mother). |
| C61 | A training epoch is gradient descent on the squared error | `Backprop_Props.v`, `Backprop_Props2.v` | 14 | The model covers train, _calcDerivs and the sharing of arrays between the module and the descent object. C61_outside_write_refuted and C61_weightdecay_refuted show the two readings that fail: parameters written into the module are lost at the next online step, and batch mode ignores weightdecay. C61_any_state assumes differentiability along both runs. |
| C62 | Benchmark functions have their zero where they say | `Functions_Props.v` | 30 | Benchmark functions over the reals, as lists of coordinates; xopt arrays are shared by place, as translation updates them in place. Noise-free; BBOBTransformationFunction is not modelled. The _refuted theorems state which functions and transformations break the documented promise. |
| C63 | What the error measures measure | `Errors_Props.v` | 13 | Rationals; modules are abstract state machines with a reset. Datasets are those of C07 after any session. |
| C64 | Particle swarm: update rule, memory, and what the search depends on | `Pso_Props.v` | 9 | Proved over any ring of scalars with exact arithmetic; fitness values finite (a fitness of plus or minus infinity would leave the remembered point at the zero vector). C64_target_refuted: the pull goes to the current position of the best neighbour, which may already have moved in the same loop. |
| C65 | Finite differences, SPSA and PGPE: direction and size of the steps, invariance, positive deviations | `FiniteDiff_Props.v` | 9 | Proved over the exact reals; momentum 0 in the step theorems, arbitrary in the invariance theorems; rprop mode is not covered. scipy's pinv is an argument of which the theorem assumes D P D = D and that the tried deviations span the space. C65_fd_refuted, C65_fd_ignores_direction, C65_global_refuted and C65_global_never_adapts state what the code gets wrong. |
| C66 | Linear function approximation: what the learners and their agent do | `LinearFA_Props.v` | 22 | the learners and the linear agent over exact reals; the pseudo-inverse is a parameter assumed to invert invertible matrices; theorems ending in _refuted show where the code departs from its documentation |
| C67 | Policy gradients: derivatives of the log likelihood, baselines, and the step they make | `PolicyGrad_Props.v` | 23 | over exact reals; the network is a parameter with its back-propagation (assumed to be the vector-Jacobian product where a theorem needs it), the pseudo-inverse of ENAC a parameter; theorems ending in _refuted show where the code departs from the gradient it names |
| C68 | The optimizers that adapt a search distribution (SNES, xNES, CMA-ES, FEM) follow the strategies they name | `Distrib_Props.v` | 34 | over exact reals, with the random draws, scipy's expm and numpy's eig as parameters under their contracts; the CMA-ES theorems hold for its default parameters; theorems ending in _refuted show where the code departs from the strategy it names |
| C69 | Coevolution: bookkeeping of games, who meets whom, fitness, selection, and the limits of a run | `Coevo_Props.v` | 32 | The relative and absolute evaluators, mutate, randomize and the averaging of parameters are arguments; random draws come from an arbitrary stream. The subclasses are modelled as if their broken import path were right. Refuted parts are stated as theorems ending in _refuted. |
| C70 | Mixture density networks: the layer, the error and the errors sent back | `Mixture_Props.v` | 9 | Proved over the reals. C70_outputs: what the layer computes. C70_error: the error is the negative log likelihood in one dimension; C70_error_dimensions_refuted gives the exact difference in more. C70_gradient and C70_gradient_likelihood: the derivative of the error along every curve of activations; C70_deviation_refuted: what is sent back is not minus the gradient because the factor of the deviation is missing; C70_deviation_aim_refuted: the deviation training aims for. C70_posterior, C70_sequence. |
| C71 | Networks for boards: sweeps, borders, convolution, and the symmetries of the board | `Board_Props.v`, `Board_Props2.v`, `Board_Props3.v` | 13 | Modelled: connections of swiping, border swiping, capture game (without MDLSTM cells and combined inputs) and convolutional networks, the equations of one forward pass over a ring, extrapolation of border weights. The activation of a hidden layer is any function of its own inputs. Refuted: reflections without dimension symmetry, exchange of three dimensions, windows and boards of one field. |
| C72 | Restricted Boltzmann machines: activations, contrastive divergence, and where weights go | `Rbm_Props.v` | 15 | Reals. The activation is computed directly from the two full connections; the batches, draws and initial visible biases are arguments. DeepBeliefTrainer only as far as the exception that ends it. |
| C73 | Memetic search: topologies by mutation, weights by local search, and what is reported | `Memetic_Props.v` | 10 | Over rationals; the evaluator may change between evaluations and may diverge; mutations are arbitrary functions that keep weights (topologyMutate) or masks (mutate), as those of MaskedParameters do (C25). The local search is HillClimber with its defaults; evaluatorIsNoisy is False. Refuted: reported parameters, topologies in InverseMemeticSearch, its restoring of the operators after a divergence, the start point. InnerMemeticSearch and InnerInverseMemeticSearch (ES based) are not modelled. |
| C74 | Copies that share structure: CheaplyCopiable and MaskedModule | `Copies_Props.v` | 7 | The module is arbitrary (abstract buffers, arbitrary activate and backActivate); parameter arrays live on a heap, so aliasing is part of the model. Refuted in general for recurrent modules, derivatives, shared arrays and masked modules, with the exact discipline under which they do hold. convertToFastNetwork and getBase are not modelled. |
| C75 | Playing against an opponent: what the two-player tasks measure | `Duel_Props.v` | 21 | Games are abstract rules (instantiated with the capture game and Gomoku); handicap and relative tasks take the game results as an oracle. PenteTask only through GomokuTask's methods. Refuted: batches with alternating colours, reward sign with refused moves, ladder floor, scale, percentage, no games, anti-symmetry, board of size 2, single start, draws. |
| C76 | The players of the board games: which moves they choose, and that games end | `Players_Props.v`, `Players_Props2.v` | 21 |  |
| C77 | Exploring agents with discrete actions, and neuro-fitted Q-learning | `Explorers_Props.v` | 20 |  |
| C78 | Carts and poles: the mechanics, what the balancing tasks pay, and where they look at the wrong thing | `Poles_Props.v`, `Poles_Props2.v` | 34 | Proved over exact reals; the Runge-Kutta step of matplotlib is modelled by its definition. Nine refutations of what the tasks are for are theorems (see the statement). |
| C79 | Classic control tasks: when an episode ends, what it pays, and whether the simulation is the system it names | `Classic_Props.v`, `Classic_Props2.v`, `Classic_Props3.v` | 39 | Floats are reals, so the results are exact; the random numbers, and for the loop of f the module's actions, are arguments. Rendering is not modelled. The refuted parts are separate theorems. |
| C80 | Slices, swipes, blocks and parameter views of multi-dimensional networks put every number in exactly one place | `Mdrnn_Props.v`, `Mdrnn_Props2.v` | 17 | The compiled (arac) computation of an MdrnnLayer is not in the repository and not modelled. Float rounding abstracted to exact reals in the gates. |
| C81 | Self-organizing maps, cluster seeds, left-ordered matrices and principal components do what they say to every data set | `Cluster_Props.v` | 18 | Exact reals instead of floats; scipy's kmeans2 and eig are not modelled (eigenvalues and eigenvectors are arguments); pPca is not modelled. |
| C82 | Least-squares value estimation is exact whenever the features allow it, and least-squares policy iteration with complete features finds an optimal policy | `Lstd_Props.v`, `Lstd_Props2.v` | 12 |  |
| C83 | Gaussian process predictions are the Bayesian ones with a valid covariance, and the recursive inverse of the Fisher information inverts every block | `Gauss_Props.v`, `Gauss_Props2.v` | 20 | Exact reals; solve and inv are arguments assumed right for regular systems; 0 length scale excluded; plotting and the grid construction not modelled. |
| C84 | The remaining maze tasks: shuttle docking, cheese maze, 4x3 maze, 89-state maze | `Tasks_Props.v`, `Tasks_Props2.v`, `Tasks_Props3.v`, `Tasks_Props4.v` | 22 | All parts proved. The shuttle's Forward, bang flag, missing total and black observation, the handedness of TurnLeft, the 4x3 maze's bad cell and its observation encoding are refuted by the faithful model. |
| C85 | Evolino networks: genomes, washout, extrapolation, genome filters | `Evonet_Props.v`, `Evonet_Props2.v` | 22 | The recurrent network inside is any state machine whose outputs have the right size; numbers are reals; normal and uniform draws are arguments; a wrong-sized later washout value is not modelled. |
| C86 | Multi-objective benchmarks: Pareto sets and constraints; Lennard-Jones clusters | `Moo_Props.v`, `Moo_Props2.v` | 21 | Over the reals; arrays have the declared dimension; coincident atoms (infinite in numpy) are outside the model. Kursawe's function is not modelled. |
| C87 | Small tools: reading sparse and raw data, adaptive resampling, choosing files, keyword arguments | `Tools_Props.v`, `Tools_Props2.v` | 25 | Lines arrive split and their numbers read; values are rationals (reals for the resampler); the medians are arguments of a call; the order of the directory listing is an argument. Refuted: counts after a second file, rows of zeros in raw targets, non-ascending indices, an empty extension, batches of one. |
| C88 | Universal search ends where it should only if every complexity has programs that end; nobody scores in the simple race | `Search_Props.v` | 10 | Programs are run as a whole (whether the result equals True, or never returns). The server's messages are arguments, split and read as under Python 2; distances are exact. Refuted: gaps in the enumeration, the time limit, the scores. |
| C89 | The flexible cube: springs, momentum, floor, and what its tasks pay | `Flex_Props.v` | 30 | Exact reals; actions of twelve entries; the sensors Target and Time, the target tasks, rendering and sockets are not modelled. Refuted: the reset keeps the centre of gravity, a new cube is not a reset one, the task's action winds up. |
| C90 | The Evolino trainer | `EvoTrain_Props.v` | 13 | Documented wait and default ratio refuted (C90_wait_refuted, C90_default_ratio_refuted); setData does not reach the evaluation (C90_setData_refuted). |
| C91 | The generations of the multi-objective genetic algorithms | `MooGA_Props.v` | 8 | elitism = False refuted (C91_no_elitism_refuted, C91_best_left_refuted). |

## Where the code deviates from its documentation

Each `_refuted` theorem is a state of the faithful model in which a documented or
expected property fails; the comment beside it names the lines. `MANIFEST.json`
and the table above name them for each property.

## Tests of the theorems

`seeded/LOG.jsonl` records the wrong programs tried: each line is one edit of a
definition of the model in a scratch copy, the claim it breaks, and the theorems
whose proofs no longer go through (a theorem is listed when its own proof or one
it depends on fails). Edits that turn out not to change what the claim is about
are marked as such.
