{
 "claims": [
  {
   "property": "C01",
   "status": "proved",
   "theorems": [
    "C01_well_formed",
    "C01_additions_succeed",
    "C01_same_datum_twice_refuted",
    "C01_foreign_parent_refuted"
   ],
   "note": "Invariant of every history of add_entry calls and record writes (fewer than 2^32 entries). Refuted outside the stated hypotheses: re-adding a shared datum, parent outside the tree."
  },
  {
   "property": "C02",
   "status": "proved",
   "theorems": [
    "C02_depth_terminates",
    "C02_depth_counts_ancestors"
   ],
   "note": "Termination on arbitrary arrays; exact ancestor count on well-formed trees."
  },
  {
   "property": "C03",
   "status": "partial",
   "theorems": [
    "C03_round_trip",
    "C03_accepted_in_range",
    "C03_accepted_unshared",
    "C03_cycle_accepted_refuted",
    "C03_unmirrored_accepted_refuted"
   ],
   "note": "Round trip and in-range validation proved; the last sentence (acyclic, mirrored) is refuted: load accepts cyclic and unmirrored trees."
  },
  {
   "property": "C04",
   "status": "proved",
   "theorems": [
    "C04_legacy_topology",
    "C04_legacy_shared_rejected",
    "C04_legacy_null_refuted"
   ],
   "note": "Proved for distinct data with pointers inside the tree; shared data rejected; a null datum is dereferenced (refuted theorem)."
  },
  {
   "property": "C05",
   "status": "proved",
   "theorems": [
    "C05_unique",
    "C05_minor_unique",
    "C05_one_major",
    "C05_after_fork_refuted"
   ],
   "note": "All interleavings in a process started afresh (sequentially consistent memory); refuted in a forked child."
  },
  {
   "property": "C06",
   "status": "proved",
   "theorems": [
    "C06_signature_ordered",
    "C06_particle_id_ordered",
    "C06_record_ordered",
    "C06_record_equality",
    "C06_nan_refuted"
   ],
   "note": "Strict weak order consistent with ==, for every NaN-free number type; NaN breaks it."
  },
  {
   "property": "C07",
   "status": "partial",
   "theorems": [
    "C07_set",
    "C07_order",
    "C07_sound",
    "C07_consistent",
    "C07_determined",
    "C07_derived",
    "C07_throws",
    "C07_nan_refuted",
    "C07_direction_refuted",
    "C07_mass_refuted",
    "C07_momentum_refuted"
   ],
   "note": "For every call sequence: set values are returned as last set, order of reads is irrelevant, and if the inputs are those of a particle obeying special relativity each getter throws or returns its value (so nothing is invented). Refuted parts: contradictory inputs (E < m) give NaN instead of throwing; a non-unit direction gives a momentum off the mass shell. Side findings: some determined values throw."
  },
  {
   "property": "C08",
   "status": "partial",
   "theorems": [
    "C08_sound",
    "C08_consistent",
    "C08_order",
    "C08_throws",
    "C08_closest_refuted",
    "C08_undefined_refuted",
    "C08_stale_refuted",
    "C08_nan_refuted"
   ],
   "note": "Same method for positions. Refuted parts: the point of closest approach derived from initial position, direction and initial distance has the wrong sign; two distance branches read an unset (uninitialized or stale) direction; a zero-length path gives NaN."
  },
  {
   "property": "C09",
   "status": "partial",
   "theorems": [
    "C09_record",
    "C09_exists",
    "C09_finalize",
    "C09_time_set",
    "C09_frame",
    "C09_chain",
    "C09_rest_refuted",
    "C09_length_refuted",
    "C09_energy_refuted"
   ],
   "note": "Proved for every parent, slot and length with nonzero energy and momentum, including the chain from a finished parent (C09_chain). Refuted: a secondary at rest (nonzero energy, zero momentum) gets a NaN vertex, one with zero energy entry never moves, and Finalize without SetLength reads an uninitialised member."
  },
  {
   "property": "C10",
   "status": "proved",
   "theorems": [
    "C10_counters_ordered",
    "C10_refuses_at_quota",
    "C10_refuses_only_at_quota",
    "C10_calls_counted"
   ],
   "note": "Counters ordered in every history of generation outcomes and resets; refusal exactly at quota; every call counted."
  },
  {
   "property": "C11",
   "status": "partial",
   "theorems": [
    "C11_true_but_refuses_refuted",
    "C11_zero_quota_refuted",
    "C11_safe_without_failures_partial",
    "C11_false_means_refused"
   ],
   "note": "Refuted: after a failed attempt, and for quota zero, operator bool is true although GenerateEvent refuses. Holds while no attempt has failed; false always means refused."
  },
  {
   "property": "C12",
   "status": "proved",
   "theorems": [
    "C12_selection",
    "C12_interval_selects",
    "C12_kind",
    "C12_no_rate_throws",
    "C12_zero_draw_refuted"
   ],
   "note": "Proved for draws in (0,1] and decay lengths that ignore the target mass. The draw 0 (possible for the generator) is refuted: a decay-only collection then indexes an empty vector."
  },
  {
   "property": "C13",
   "status": "proved",
   "theorems": [
    "C13_event_faithful",
    "C13_no_undefined_behaviour"
   ],
   "note": "For all samplers, callbacks and registries: returned events are faithful trees (bijection between let-through slots and non-root data, each made from its slot by the registered process, production times in sync), and no undefined behaviour."
  },
  {
   "property": "C14",
   "status": "proved",
   "theorems": [
    "C14_registries",
    "C14_exit"
   ],
   "note": "First process of a type wins in both maps; lists correspond; exit(0) exactly when a process lacks a vertex distribution."
  },
  {
   "property": "C15",
   "status": "proved",
   "theorems": [
    "C15_weight",
    "C15_order",
    "C15_split",
    "C15_generation",
    "C15_missing",
    "C15_incomplete_refuted",
    "C15_no_events_refuted",
    "C15_two_roots_refuted"
   ],
   "note": "Doubles are reals extended by infinities and NaN. Proved for injectors with the particle types of the weighter: balance weight of the full densities, order and splitting for all values, agreement with Injector::GenerationProbability for one root. Findings: an injector without a secondary process makes EventWeight read past a vector (order dependent); an injector with 0 events counts 0 in the weight and 1 in GenerationProbability; several roots multiply the number of events."
  },
  {
   "property": "C16",
   "status": "partial",
   "theorems": [
    "C16_cancel",
    "C16_process",
    "C16_same_interactions",
    "C16_event",
    "C16_interactions_refuted"
   ],
   "note": "Proved: exactly the common addresses are removed, and ratio and event weight are unchanged if shared distributions have the same non-zero density in both processes (true if both use the same interactions). Refuted: only particle types are compared, so with different interaction collections a cancelled distribution depending on them changes the weight."
  },
  {
   "property": "C17",
   "status": "proved",
   "theorems": [
    "C17_share",
    "C17_unit",
    "C17_normalised",
    "C17_equals_generator_frequency"
   ],
   "note": "The equality with the generator is an integral over the uniform draw (Coquelicot is_RInt); total rates are assumed to depend only on what the two records share."
  },
  {
   "property": "C18",
   "status": "partial",
   "theorems": [
    "C18_bijection",
    "C18_law",
    "C18_law_tiny",
    "C18_law_tiny_refuted",
    "C18_density",
    "C18_position",
    "C18_generation"
   ],
   "note": "C18_bijection, C18_law and C18_density give the statement for T >= 1e-6, the density used when weighting being off by a constant factor within 2e-9 of one (exactly one for 0.1 <= T <= 3). Below 1e-6 the code draws the depth uniformly and weights with 1/T: the two agree exactly (C18_density) and differ from the truncated exponential by at most 1e-6 (C18_law_tiny, C18_law_tiny_refuted). C18_position carries the density over to positions along a path with continuous interaction density; C18_generation shows that ColumnDepthPositionDistribution finds path and depths again from the vertex."
  },
  {
   "property": "C19",
   "status": "proved",
   "theorems": [
    "C19_one_minus_exp",
    "C19_log",
    "C19_series",
    "C19_interaction",
    "C19_survival",
    "C19_survival_clipped"
   ],
   "note": "Relative error 1e-11 for one_minus_exp_of_negative, 1e-8 for the logarithm (absolute 1e-9), 1e-6 for the interaction probability because of its linear branch; exact probabilities in [0,1]. Over the reals: rounding is not modelled."
  },
  {
   "property": "C20",
   "status": "proved",
   "theorems": [
    "C20_index",
    "C20_targets_sorted",
    "C20_unknown_target",
    "C20_totals",
    "C20_generic"
   ],
   "note": ""
  },
  {
   "property": "C21",
   "status": "proved",
   "theorems": [
    "C21_harmonic",
    "C21_order",
    "C21_width"
   ],
   "note": "Lengths are positive reals or infinity."
  },
  {
   "property": "C22",
   "status": "partial",
   "theorems": [
    "C22_mirror_partial",
    "C22_rejected_call_changes_nothing",
    "C22_adds_hold_no_equal_partial",
    "C22_set_accepts_equal_refuted",
    "C22_set_physical_breaks_mirror_refuted",
    "C22_add_accepts_exactly_new"
   ],
   "note": "Mirror of the injection list and absence of equal distributions hold for all histories of Add/Set calls of the injection interface. Refuted: the Set functions compare pointers, so equal-valued distributions are accepted; the inherited SetPhysicalDistributions breaks the mirror."
  },
  {
   "property": "C23",
   "status": "partial",
   "theorems": [
    "C23_containing",
    "C23_shapes",
    "C23_least_level_refuted",
    "C23_infinite_refuted",
    "C23_surface_refuted"
   ],
   "note": "Proved that the containing sector found through the hierarchy is the highest-level sector whose geometry contains the point, for every reached detector and every arrangement of the hierarchy, given that boxes enclose their geometries, that sectors of infinite extent contain the point, and that only those sit at the least integer; shown for boxes, spheres and combinations away from surfaces. Without these conditions the claim fails (three refutations: a finite sector at the least level, an infinite box around a geometry that does not contain the point, a point closer to a surface than the tolerance). The surface-area heuristic is an arbitrary rearrangement."
  },
  {
   "property": "C24",
   "status": "proved",
   "theorems": [
    "C24_intersections",
    "C24_shapes"
   ],
   "note": "The hits found through the hierarchy are a permutation of the hits of all sectors, for every reached detector, hierarchy and line, given that a geometry has no hits when the line misses its box; shown for unions and differences of placed boxes and spheres."
  },
  {
   "property": "C25",
   "status": "proved",
   "theorems": [
    "C25_comparator_decides_order",
    "C25_comparator_strict_weak_order",
    "C25_sort_unique"
   ],
   "note": "Comparator is a strict weak order deciding the documented visiting order; the sorted result is unique."
  },
  {
   "property": "C26",
   "status": "proved",
   "theorems": [
    "C26_forward_tiling",
    "C26_reverse_tiling",
    "C26_any_callback",
    "C26_containing_sector",
    "C26_without_enclosing_sector_refuted"
   ],
   "note": "Tiling in both directions with the correct top level, for any NaN-free ordered distance type; refuted when no sector encloses the ray (traversal stops at the first gap)."
  },
  {
   "property": "C27",
   "status": "partial",
   "theorems": [
    "C27_touching_ray_refuted",
    "C27_no_throw_partial"
   ],
   "note": "Refuted for touching rays (zero-length crossing throws); the theorem holds for non-degenerate crossings."
  },
  {
   "property": "C28",
   "status": "proved",
   "theorems": [
    "C28_depth",
    "C28_additive",
    "C28_symmetric",
    "C28_any_line",
    "C28_nonnegative",
    "C28_monotone",
    "C28_positive",
    "C28_zero",
    "C28_densities"
   ],
   "note": "Column depth is 100 times the line integral of the density of the highest sector, for any sectors within an enclosing one, any crossing list of the line in either direction and any densities whose Integral is exact (shown for constant and axis densities); additivity, symmetry, monotonicity, positivity and zero follow."
  },
  {
   "property": "C29",
   "status": "partial",
   "theorems": [
    "C29_inverse",
    "C29_beyond",
    "C29_negative",
    "C29_constant",
    "C29_zero_refuted"
   ],
   "note": "Distance inverts depth within 100 times the accuracy of the sectors' InverseIntegral, through any number of sectors; infinite when never reached; negative depths mirrored. Refuted for depth zero in a vacuum, where the distance is infinite."
  },
  {
   "property": "C30",
   "status": "partial",
   "theorems": [
    "C30_depth",
    "C30_no_targets",
    "C30_targets",
    "C30_inverse_partial",
    "C30_one_sector_partial",
    "C30_negative_partial",
    "C30_negative_refuted",
    "C30_decay_refuted",
    "C30_short_refuted"
   ],
   "note": "Interaction depth is the line integral plus distance over decay length (paths over 0.01 mm; shorter ones ignore matter, refuted). Inverse proved without decays for any sectors and with decays for one sector; refuted with decays through several sectors (the decay part of passed segments is dropped) and for negative depths without targets (sign dropped)."
  },
  {
   "property": "C31",
   "status": "partial",
   "theorems": [
    "C31_to_point",
    "C31_reversed",
    "C31_detector_refuted",
    "C31_detector_interaction_refuted"
   ],
   "note": "Proved in geometry coordinates: the path of that length ending at the point has the depth. Refuted in detector coordinates for column and interaction depth: the direction is not reversed."
  },
  {
   "property": "C32",
   "status": "proved",
   "theorems": [
    "C32_inverse",
    "C32_near",
    "C32_exact_refuted"
   ],
   "note": "exact outside the near-unit window of rotate; inside bounded to 3e-12, exact claim refuted"
  },
  {
   "property": "C33",
   "status": "partial",
   "theorems": [
    "C33_saved_refuted",
    "C33_equal_refuted",
    "C33_rest_kept",
    "C33_unrotated_partial"
   ],
   "note": "false of the code: detector rotation is neither saved nor compared (refuted); the rest is kept, unrotated models survive"
  },
  {
   "property": "C34",
   "status": "partial",
   "theorems": [
    "C34_registered",
    "C34_add",
    "C34_set",
    "C34_set_refuted"
   ],
   "note": "Unique levels and names, correct lookups and atomic AddSector after any calls of which only AddSector may fail. Refuted for a failing SetSectors, which replaces the sectors and leaves the old hierarchy in use."
  },
  {
   "property": "C35",
   "status": "proved",
   "theorems": [
    "C35_outer_bounds"
   ],
   "note": "Outer bounds empty iff no sector above the threshold level is crossed, else first entry and last exit bracketing all of them."
  },
  {
   "property": "C36",
   "status": "partial",
   "theorems": [
    "C36_consistent",
    "C36_distance",
    "C36_crossings",
    "C36_depth",
    "C36_column",
    "C36_clip_refuted",
    "C36_points_refuted",
    "C36_negative_refuted",
    "C36_model_refuted",
    "C36_reuse_refuted",
    "C36_unreached_refuted",
    "C36_shorten_refuted"
   ],
   "note": "Over every sequence of fair calls (distinct points, non-zero direction, non-negative length, a detector that the path reaches, depths that are reached) the points, direction and length agree in both frames, the kept crossings are those of the line of the path, and depths and interaction lookups are those of the current segment. Without these hypotheses the claim is false: C36_clip_refuted, C36_points_refuted, C36_negative_refuted, C36_reuse_refuted, C36_model_refuted, C36_unreached_refuted and C36_shorten_refuted give the calls that break it."
  },
  {
   "property": "C37",
   "status": "proved",
   "theorems": [
    "C37_undo_end",
    "C37_undo_start",
    "C37_clamp_end",
    "C37_clamp_start",
    "C37_flip",
    "C37_to",
    "C37_undo_refuted"
   ],
   "note": "Undoing holds as long as the first step is not clamped at zero (always so for a non-negative amount); C37_undo_refuted shows a clamped step cannot be undone. Flip is an involution and exchanges the operations at both ends."
  },
  {
   "property": "C38",
   "status": "proved",
   "theorems": [
    "C38_names_and_ids",
    "C38_ids_stay",
    "C38_firsts"
   ],
   "note": "All histories of definitions, including throwing ones."
  },
  {
   "property": "C39",
   "status": "partial",
   "theorems": [
    "C39_targets",
    "C39_radiation_length",
    "C39_fractions_partial",
    "C39_redefinition_partial",
    "C39_stale_component_refuted",
    "C39_repeated_definition_refuted"
   ],
   "note": "Targets always follow the latest definition; fractions do when a name is defined once. Refuted: redefinition keeps the fractions of dropped components, and repeating a definition that lists protons changes its fractions."
  },
  {
   "property": "C40",
   "status": "proved",
   "theorems": [
    "C40_derived",
    "C40_balance"
   ],
   "note": "Derived components and particle balance of every definition (exact reals)."
  },
  {
   "property": "C41",
   "status": "partial",
   "theorems": [
    "C41_never_a_fraction_refuted",
    "C41_witness_refuted"
   ],
   "note": "Refuted for every material: a present target gives 0/0 (the accumulator is never filled), an absent one throws."
  },
  {
   "property": "C42",
   "status": "proved",
   "theorems": [
    "C42_box",
    "C42_snap",
    "C42_delimits"
   ],
   "note": "Box::ComputeIntersections over the reals with the closed box as the set; the exact parameter interval is returned up to the snapping of crossings less than 1e-9 ahead to zero. Non-zero directions, non-negative widths."
  },
  {
   "property": "C43",
   "status": "proved",
   "theorems": [
    "C43_shell",
    "C43_radii",
    "C43_unstable_refuted"
   ],
   "note": "Spheres and shells without phi/theta cuts, unit directions, shells thicker than 1e-9. std::sort is any sorting function; stability (true in practice for up to 16 elements) or chords of at least 1e-9 needed, and the unstable case is refuted. Angular cuts are not modelled."
  },
  {
   "property": "C44",
   "status": "proved",
   "theorems": [
    "C44_bracketing",
    "C44_shapes"
   ],
   "note": "For every shape whose crossings delimit it, and for all nested combinations of placed boxes and spheres, away (3e-9 along the line) from primitive boundaries."
  },
  {
   "property": "C45",
   "status": "proved",
   "theorems": [
    "C45_state",
    "C45_crossings",
    "C45_shapes",
    "C45_unstable_refuted"
   ],
   "note": "Boolean walk over arbitrary children lists, and end to end for all nestings of placed boxes and spheres; crossings closer than 1e-9 are batched by the code and excluded. Unstable sorts refuted."
  },
  {
   "property": "C46",
   "status": "proved",
   "theorems": [
    "C46_ray",
    "C46_expand",
    "C46_world",
    "C46_shapes"
   ],
   "note": "RayAABBIntersect exact for valid boxes; expansion, world boxes (corner transformation, any placement) and Boolean boxes contain the shape. Infinite boxes are outside the real-number model."
  },
  {
   "property": "C47",
   "status": "proved",
   "theorems": [
    "C47_valid",
    "C47_maps",
    "C47_identity_flag"
   ],
   "note": ""
  },
  {
   "property": "C48",
   "status": "proved",
   "theorems": [
    "C48_product",
    "C48_group",
    "C48_rotate_is_conjugation",
    "C48_rotate_quaternion",
    "C48_rotation",
    "C48_inverse",
    "C48_composition",
    "C48_lengths",
    "C48_back",
    "C48_lengths_exact_refuted",
    "C48_matrix",
    "C48_matrix_round_trip",
    "C48_axis_angle"
   ],
   "note": "exact statements hold for unit quaternions and for those whose norm is at least 1e-12 from one; inside that window the fast path skips normalisation, refuted exactly and bounded for every non-zero quaternion"
  },
  {
   "property": "C49",
   "status": "proved",
   "theorems": [
    "C49_refuted",
    "C49_others_agree"
   ],
   "note": "false of the code: q *= r computes r * q and q + s multiplies; the exact behaviour of all six operators is proved"
  },
  {
   "property": "C50",
   "status": "partial",
   "theorems": [
    "C50_between_partial",
    "C50_antiparallel_x_refuted"
   ],
   "note": "proved except for antiparallel vectors along the x axis, where the code returns the zero quaternion (refuted)"
  },
  {
   "property": "C51",
   "status": "partial",
   "theorems": [
    "C51_equal_means_same_coordinates",
    "C51_plain_vectors_partial",
    "C51_normalized_refuted"
   ],
   "note": "equality also compares the spherical members, so it fails after normalize (refuted); iff for vectors whose spherical members were never set"
  },
  {
   "property": "C52",
   "status": "partial",
   "theorems": [
    "C52_evaluate",
    "C52_shift_partial",
    "C52_small_shift_refuted",
    "C52_scale",
    "C52_derivative",
    "C52_antiderivative",
    "C52_integral",
    "C52_equality"
   ],
   "note": "shift is skipped for |s| <= 1e-9 (refuted there), proved for all other shifts and any array content; derivative, antiderivative, scale and equality proved in full"
  },
  {
   "property": "C53",
   "status": "partial",
   "theorems": [
    "C53_stays_inside_partial",
    "C53_throws",
    "C53_brackets_root",
    "C53_finds",
    "C53_accuracy_partial",
    "C53_flat_root_refuted"
   ],
   "note": "Every point and the value stay in the interval; the value is a root or shares the bracket with one, within (1+hi/lo)*xacc when the slope is bounded and the steps suffice; a 0/0 step is possible (refuted)."
  },
  {
   "property": "C54",
   "status": "partial",
   "theorems": [
    "C54_antiderivative_1d",
    "C54_derivative",
    "C54_radial_derivative",
    "C54_antiderivative",
    "C54_integral_partial",
    "C54_integral_between_points",
    "C54_constant_integral",
    "C54_perpendicular_refuted",
    "C54_flat_exponential_refuted",
    "C54_inverse_partial",
    "C54_inverse_with_constant_partial",
    "C54_inverse_with_constant_refuted",
    "C54_constant_inverse",
    "C54_constant_inverse_with_constant",
    "C54_radial_inverse_partial",
    "C54_radial_inverse_with_constant_partial"
   ],
   "note": "Cartesian and constant densities in full except rays perpendicular to the axis and exponentials of slope zero (refuted). InverseIntegral: -1 exactly when there is no solution; accuracy is that of NewtonRaphson (C53). With a constant the Cartesian version is refuted. Radial densities: rombergIntegrate assumed exact."
  },
  {
   "property": "C55",
   "status": "partial",
   "theorems": [
    "C55_nodes_log_even",
    "C55_nodes_even",
    "C55_nodes_uneven_partial",
    "C55_between",
    "C55_first_refuted",
    "C55_nearly_even_refuted",
    "C55_negative_refuted",
    "C55_zero_refuted",
    "C55_copy_refuted",
    "C55_repeated",
    "C55_order_refuted"
   ],
   "note": "Exact at every entry for tables evenly spaced in the logarithm (positive values) or in the abscissa; at every entry but the first otherwise; between neighbours in all three classes. Refuted: the first entry of an unevenly spaced table (unsigned wrap-around picks the last bin), tables even only to within 1e-4, negative entries (clipped), zero entries in logarithmic mode, and copies of an interpolator (mask of zeroes has size zero)."
  },
  {
   "property": "C56",
   "status": "proved",
   "theorems": [
    "C56_integral",
    "C56_additive",
    "C56_whole",
    "C56_degenerate"
   ],
   "note": "Integral of any function following the chords, additivity over adjacent ranges, agreement with the unbounded integration, degenerate inputs."
  },
  {
   "property": "C57",
   "status": "partial",
   "theorems": [
    "C57_uniform",
    "C57_uniform_onto",
    "C57_power_law_partial",
    "C57_power_law_never",
    "C57_power_law_refuted"
   ],
   "note": "Uniform holds for all arguments. PowerLaw applies the stretched variate as if it were in [0,1]: C57_power_law_partial says exactly when the result is in the range, C57_power_law_never and C57_power_law_refuted that it is not for ranges above one."
  },
  {
   "property": "C58",
   "status": "partial",
   "theorems": [
    "C58_energy",
    "C58_total",
    "C58_single",
    "C58_positive_everywhere",
    "C58_outside_refuted",
    "C58_single_refuted"
   ],
   "note": "C58_energy and C58_total for every index and 0 < Emin < Emax; C58_outside_refuted: the density is not cut to the range; C58_single_refuted: with Emin = Emax every energy has density one."
  },
  {
   "property": "C59",
   "status": "proved",
   "theorems": [
    "C59_bijection",
    "C59_density",
    "C59_total",
    "C59_generation",
    "C59_disk",
    "C59_outside",
    "C59_before_refuted"
   ],
   "note": "For all L, D > 0. C59_generation and C59_disk cover the three-dimensional sampling and its inversion by GenerationProbability; path extension and clipping enter as an arbitrary shift and length. C59_before_refuted: the millimetre tolerance of Path::IsWithinBounds gives positive density where nothing is generated."
  },
  {
   "property": "C60",
   "status": "partial",
   "theorems": [
    "C60_ordered",
    "C60_distinct",
    "C60_constants",
    "C60_column_partial",
    "C60_decay_partial",
    "C60_source_partial",
    "C60_range_partial",
    "C60_mass_refuted",
    "C60_direction_refuted",
    "C60_copy_refuted",
    "C60_tolerance_refuted",
    "C60_cone_refuted",
    "C60_radius_refuted",
    "C60_range_refuted",
    "C60_constant_refuted",
    "C60_fiducial_refuted",
    "C60_normalization_refuted"
   ],
   "note": "Proved for all classes whose two operators read the same members (C60_ordered, C60_distinct, C60_constants). False for PrimaryMass, FixedDirection, Cone, ColumnDepth, DecayRange, Range and PointSource positions and for NormalizationConstant against other classes: the C60 refutations give witnesses; the partial theorems say what order remains."
  },
  {
   "property": "C61",
   "status": "partial",
   "theorems": [
    "C61_sample_partial",
    "C61_cover_partial",
    "C61_density",
    "C61_total",
    "C61_down_refuted",
    "C61_length_refuted",
    "C61_edge_refuted"
   ],
   "note": "Sampling for unit axes other than straight down (C61_sample_partial, C61_cover_partial); density for every axis. C61_down_refuted: straight down gives NaN; C61_length_refuted: an axis of another length is sampled around a different direction; C61_edge_refuted: the edge drawn with variate zero has density zero."
  },
  {
   "property": "C62",
   "status": "partial",
   "theorems": [
    "C62_element",
    "C62_entry",
    "C62_column_refuted",
    "C62_value",
    "C62_number_name_refuted",
    "C62_line_break_refuted",
    "C62_range_refuted",
    "C62_index_refuted"
   ],
   "note": "Proved for every expression of the grammar and every spelling in which only blanks or tabs stand between a function name and its parenthesis, no name is one strtod reads as a number, and numerals are in range. Outside these conditions the property is refuted: a line break before the parenthesis, a constant called inf or nan, a numeral out of range, a matrix index containing a comma in a call."
  },
  {
   "property": "C63",
   "status": "partial",
   "theorems": [
    "C63_terminates",
    "C63_depth",
    "C63_balanced",
    "C63_counts",
    "C63_terminates_refuted",
    "C63_malformed_refuted"
   ],
   "note": "Termination is proved for every string in which each point is followed by a digit and refuted in general (a lone point loops for ever). Rejection of malformed strings is refuted (postfix notation is accepted); proved instead: accepted strings have balanced parentheses and matching counts of operands and operators."
  },
  {
   "property": "C64",
   "status": "partial",
   "theorems": [
    "C64_substitution",
    "C64_empty_name_refuted",
    "C64_brackets",
    "C64_terminates",
    "C64_no_loop",
    "C64_unroll",
    "C64_limit",
    "C64_unnamed_refuted",
    "C64_deep_refuted",
    "C64_stale_refuted",
    "C64_shadow_refuted"
   ],
   "note": "Substitution of whole names and of brackets proved for all texts; expansion ends for documents whose loops name their variable, leaves no loop in 64 levels, and unrolls a loop into one copy per value. Refuted: a loop without the attribute for never ends; loops deeper than 64 levels stay; brackets of nested loops are evaluated with left-over values; a reused name renames the inner variable."
  },
  {
   "property": "C65",
   "status": "proved",
   "theorems": [
    "C65_length",
    "C65_angle",
    "C65_quantity",
    "C65_resolve",
    "C65_guard_sound",
    "C65_guard_complete",
    "C65_not_a_unit_refuted",
    "C65_second_refuted"
   ],
   "note": "Names and factors of lengths and angles characterised for all strings; every classified unit is converted with the factor of its definition; the guard against units in densities is sound and complete. Side findings: unit=\"pi\" is accepted, unit=\"s\" is not."
  },
  {
   "property": "C66",
   "status": "proved",
   "theorems": [
    "C66_numbers_unique",
    "C66_number_round_trip"
   ],
   "note": "Fewer than 2^64 trees. Also the int/attribute encoding of the number round-trips."
  },
  {
   "property": "C67",
   "status": "proved",
   "theorems": [
    "C67_key",
    "C67_ids",
    "C67_order_independent",
    "C67_names",
    "C67_prefilled_kept",
    "C67_prefilled_refuted"
   ],
   "note": "Keys injective, ids identify signatures, order independence, names. The claim for arbitrary pre-filled maps is refuted (C67_prefilled_refuted: ids from 700 are given out without looking at ids in use)."
  },
  {
   "property": "C68",
   "status": "proved",
   "theorems": [
    "C68_import",
    "C68_strict",
    "C68_joined",
    "C68_round_trip"
   ],
   "note": "Import terminates, is complete and places vertices under their producers for every graph, cyclic ones included; strict mode; records read back after export are the same. Round trip assumes all primary/secondary ids set and distinct, and nothing stored where an event has no place for it (target data without a target, parameter with an empty name)."
  },
  {
   "property": "C69",
   "status": "proved",
   "theorems": [
    "C69_round_trip",
    "C69_decode_encode",
    "C69_odd_rejected"
   ],
   "note": ""
  },
  {
   "property": "C70",
   "status": "partial",
   "theorems": [
    "C70_decodes",
    "C70_rejects_short",
    "C70_prefix_refuted",
    "C70_antinucleus_refuted"
   ],
   "note": "Decoding proved for all fields; refuted for codes without the prefix 10 and for negative codes."
  },
  {
   "property": "C71",
   "status": "partial",
   "theorems": [
    "C71_complete_file",
    "C71_block",
    "C71_ignored_lines",
    "C71_truncated_file_refuted"
   ],
   "note": "Proved for files of complete blocks; refuted: a truncated file hangs."
  },
  {
   "property": "C72",
   "status": "proved",
   "theorems": [
    "C72_weight_sums",
    "C72_accumulates",
    "C72_event_weights"
   ],
   "note": "Real arithmetic for the sums."
  },
  {
   "property": "C73",
   "status": "proved",
   "theorems": [
    "C73_products",
    "C73_action"
   ],
   "note": ""
  },
  {
   "property": "C74",
   "status": "partial",
   "theorems": [
    "C74_isotropic",
    "C74_own_partial",
    "C74_other",
    "C74_fixed_refuted"
   ],
   "note": "C74_isotropic complete; C74_own_partial needs a unit vector for FixedDirection (C74_fixed_refuted) and a positive energy for Monoenergetic."
  },
  {
   "property": "C75",
   "status": "proved",
   "theorems": [
    "C75_cdf",
    "C75_inverse",
    "C75_rounds",
    "C75_generation"
   ],
   "note": "Over the reals, with the constant of Constants.h."
  },
  {
   "property": "C76",
   "status": "proved",
   "theorems": [
    "C76_sample",
    "C76_integral"
   ],
   "note": "The error function enters through its derivative and its value at zero; C76_case constructs one. The constructor's Romberg check of the normalisation is not modelled."
  },
  {
   "property": "C77",
   "status": "proved",
   "theorems": [
    "C77_product",
    "C77_tiny_refuted"
   ],
   "note": "Exact between depths 1e-6 and 3; error bounds elsewhere; not exact below 1e-6 (refuted witness)."
  },
  {
   "property": "C78",
   "status": "partial",
   "theorems": [
    "C78_meaning",
    "C78_negative_refuted",
    "C78_exponent_refuted"
   ],
   "note": "Proved for values written as unsigned numerals and variables not beginning with e; refuted for negative values (i^2 with i=-3 gives -9) and for variables like e1."
  },
  {
   "property": "C79",
   "status": "proved",
   "theorems": [
    "C79_ordered",
    "C79_equality",
    "C79_place_refuted"
   ],
   "note": "C79_place_refuted: the spherical coordinates of a position, set only on request, take part in the comparison."
  },
  {
   "property": "C80",
   "status": "proved",
   "theorems": [
    "C80_flight",
    "C80_time",
    "C80_finalize",
    "C80_available",
    "C80_rest_refuted"
   ],
   "note": "Reads as in C07. Interaction parameters copied by Finalize are not modelled. Side finding: a particle at rest reaches a distant vertex at once."
  },
  {
   "property": "C81",
   "status": "proved",
   "theorems": [
    "C81_particle",
    "C81_default_refuted"
   ],
   "note": "Side finding: an unknown particle comes out at rest at the origin."
  },
  {
   "property": "C82",
   "status": "proved",
   "theorems": [
    "C82_new",
    "C82_set",
    "C82_sound",
    "C82_throws",
    "C82_order",
    "C82_nan_refuted"
   ],
   "note": "For every sequence of setter and getter calls. C82_nan_refuted is a side finding outside the hypotheses (energy below mass)."
  },
  {
   "property": "C83",
   "status": "proved",
   "theorems": [
    "C83_finalize",
    "C83_frame",
    "C83_succeeds"
   ],
   "note": "Any number of secondaries, any interleaving of calls; success characterised exactly for physical inputs. interaction_parameters are not modelled."
  },
  {
   "property": "C84",
   "status": "proved",
   "theorems": [
    "C84_lorentz",
    "C84_product",
    "C84_rest",
    "C84_lab_undoes_rest",
    "C84_constructors"
   ],
   "note": "P4 and Boost of the vendored rk library over the reals; assertion failures are a separate outcome."
  },
  {
   "property": "C85",
   "status": "partial",
   "theorems": [
    "C85_proper",
    "C85_takes_partial",
    "C85_takes_nearly",
    "C85_takes_refuted",
    "C85_integer_abs_refuted"
   ],
   "note": "Exact for exactly parallel or antiparallel directions and outside the 1e-9 thresholds, within 2e-9 (squared distance) everywhere; refuted inside the thresholds, and refuted on an open set if the unqualified abs resolves to the integer function."
  },
  {
   "property": "C86",
   "status": "proved",
   "theorems": [
    "C86_conserved",
    "C86_mass_refuted"
   ],
   "note": "For records whose mass is the mass of the decay model; refuted otherwise."
  },
  {
   "property": "C87",
   "status": "partial",
   "theorems": [
    "C87_drawn",
    "C87_weight_partial",
    "C87_at_rest_refuted",
    "C87_near_axis_refuted",
    "C87_integer_abs_refuted"
   ],
   "note": "Cumulative distribution proved for all draws; the weight agrees for moving particles outside the thresholds of rotationBetween; refuted at rest, near the x axis, and for the integer abs."
  },
  {
   "property": "C88",
   "status": "proved",
   "theorems": [
    "C88_widths",
    "C88_length",
    "C88_lengths",
    "C88_other_parent_refuted"
   ],
   "note": "For the parents the class offers signatures for; for any other parent the total width is non-zero although no signature exists (refuted)."
  },
  {
   "property": "C89",
   "status": "proved",
   "theorems": [
    "C89_member",
    "C89_support",
    "C89_stationary",
    "C89_other_law",
    "C89_reported_density_refuted"
   ],
   "note": "Likelihood not negative, reported density positive. C89_other_law says what is sampled otherwise."
  },
  {
   "property": "C90",
   "status": "proved",
   "theorems": [
    "C90_electron",
    "C90_electron_limit",
    "C90_record_formula"
   ],
   "note": "abs taken as the one of doubles; the library's rotation is inexact close to the x axis (C85)."
  },
  {
   "property": "C91",
   "status": "partial",
   "theorems": [
    "C91_proposal",
    "C91_balance",
    "C91_law_refuted",
    "C91_neutrino_unchanged",
    "C91_conservation_refuted",
    "C91_weight_refuted",
    "C91_never_set_refuted",
    "C91_past_limit_refuted"
   ],
   "note": "Refuted by witnesses: the chain balances the cross section divided by y (C91_balance), the outgoing neutrino is the incoming one (C91_neutrino_unchanged), the weight is evaluated at y = 0, y may keep its start value 0, and the added 1e-16 may pass the limit."
  },
  {
   "property": "C92",
   "status": "proved",
   "theorems": [
    "C92_allowed_exact",
    "C92_products",
    "C92_record",
    "C92_target_mass_refuted"
   ],
   "note": "Outside the hypotheses, C92_target_mass_refuted: if the record's target mass is not the table's, energy need not be conserved."
  },
  {
   "property": "C93",
   "status": "proved",
   "theorems": [
    "C93_sampled",
    "C93_draw",
    "C93_balance",
    "C93_nan_start"
   ],
   "note": "Balance per round; that the chain of 41 rounds has converged is not claimed. C93_nan_start: from a point where the spline is not a number the chain never moves."
  },
  {
   "property": "C94",
   "status": "proved",
   "theorems": [
    "C94_kept",
    "C94_three_momenta",
    "C94_three_neutrinos_refuted",
    "C94_threshold_refuted"
   ],
   "note": "For signatures with one lepton and one other particle at or above threshold, with the record's mass equal to the model's. The three-neutrino channel keeps the momentum but not the energy (refuted), and below threshold the sampler makes NaNs (refuted)."
  },
  {
   "property": "C95",
   "status": "partial",
   "theorems": [
    "C95_drawn",
    "C95_weight",
    "C95_size",
    "C95_sign_refuted"
   ],
   "note": "Proved for the asymmetry the code works with: size right, sign taken from the helicity alone. Where the meson's own asymmetry is negative (M^2 < 2 m^2) the sign is lost (refuted)."
  },
  {
   "property": "C96",
   "status": "proved",
   "theorems": [
    "C96_kept",
    "C96_sampled",
    "C96_end_refuted"
   ],
   "note": "C96_kept for draws in [0,1); C96_sampled for what the Metropolis-Hastings chain returns; C96_end_refuted: at the closed end of the first interval the direction is 0/0."
  },
  {
   "property": "C97",
   "status": "partial",
   "theorems": [
    "C97_complete",
    "C97_limits",
    "C97_flat_refuted"
   ],
   "note": "C97_complete and C97_limits: the proposal reaches every decay and its limits are the standard ones; C97_flat_refuted: the density is not constant although 1.0 is reported."
  },
  {
   "property": "C98",
   "status": "partial",
   "theorems": [
    "C98_average",
    "C98_flavours_refuted",
    "C98_nan_refuted",
    "C98_boosted_refuted"
   ],
   "note": "C98_average: for equal flavours the sum over helicities is never negative. C98_flavours_refuted and C98_nan_refuted: for different flavours negative and NaN widths at allowed points; C98_boosted_refuted: negative for one helicity because laboratory angles are used."
  },
  {
   "property": "C99",
   "status": "proved",
   "theorems": [
    "C99_query",
    "C99_limited",
    "C99_refused",
    "C99_outside_refuted"
   ],
   "note": "The value equality is assumed to be equality; boxes are over the reals. C99_outside_refuted records that a query outside the tree is a failed assertion."
  },
  {
   "property": "C100",
   "status": "proved",
   "theorems": [
    "C100_pairs",
    "C100_once"
   ],
   "note": "Pairs are compared up to order within the pair; C100_once gives the form for values held once."
  },
  {
   "property": "C101",
   "status": "proved",
   "theorems": [
    "C101_least",
    "C101_inverse",
    "C101_order",
    "C101_domain",
    "C101_archive"
   ],
   "note": "Over the reals; rounding of save (MaxX = min + range) is not modelled."
  },
  {
   "property": "C102",
   "status": "partial",
   "theorems": [
    "C102_equivalence",
    "C102_order_partial",
    "C102_members_refuted",
    "C102_null_refuted",
    "C102_operator_refuted"
   ],
   "note": "Equality is an equivalence and the order within one class is strict, transitive and total. Refuted: equality ignores the members; comparing different classes dereferences a null pointer; equality of operators is asymmetric."
  },
  {
   "property": "C103",
   "status": "proved",
   "theorems": [
    "C103_linear",
    "C103_drop_linear",
    "C103_bilinear",
    "C103_drop_bilinear"
   ],
   "note": "Over the reals."
  },
  {
   "property": "C104",
   "status": "partial",
   "theorems": [
    "C104_constructed",
    "C104_located",
    "C104_within",
    "C104_overflow_refuted",
    "C104_reversed_refuted"
   ],
   "note": "Proved for data that have equal steps when sorted. Refuted: the flag reversed is never set (the sorted data are compared with their own reverse), so descending data get places of the ascending list; far outside the data the conversion to int overflows."
  },
  {
   "property": "C105",
   "status": "proved",
   "theorems": [
    "C105_located",
    "C105_transformed"
   ],
   "note": "Places are those in the sorted data, as for C104."
  },
  {
   "property": "C106",
   "status": "proved",
   "theorems": [
    "C106_full",
    "C106_corners",
    "C106_regular"
   ],
   "note": "For irregular indexers on full grids without conditions; for regular ones if the values have equal steps."
  },
  {
   "property": "C107",
   "status": "partial",
   "theorems": [
    "C107_equal_steps_partial",
    "C107_irregular_refuted",
    "C107_empty_refuted"
   ],
   "note": "Proved for equal steps. Refuted in general: the metric for a regular grid ignores all points far from it, so data such as -10, 0, 1 are indexed as regular."
  },
  {
   "property": "C108",
   "status": "partial",
   "theorems": [
    "C108_inside",
    "C108_lookup",
    "C108_the_triangle",
    "C108_node_refuted",
    "C108_edge_refuted",
    "C108_outside_refuted"
   ],
   "note": "Inner points of triangles are found, other points among the data get the null pointer. Points on edges and the data points themselves are found in no triangle; a position away from the data is a failed assertion."
  },
  {
   "property": "C109",
   "status": "partial",
   "theorems": [
    "C109_weights",
    "C109_affine",
    "C109_edge",
    "C109_order",
    "C109_interpolator",
    "C109_exact",
    "C109_between",
    "C109_node_refuted",
    "C109_transform_refuted",
    "C109_drop_refuted"
   ],
   "note": "Exact, bounded and continuous without transforms. The interpolator throws at nodes and edges, uses positions without transforming them, and the dropping operator passes the first value twice."
  },
  {
   "property": "C110",
   "status": "proved",
   "theorems": [
    "C110_column",
    "C110_from_start",
    "C110_from_end",
    "C110_split",
    "C110_reach",
    "C110_by",
    "C110_upto",
    "C110_reach_bounds"
   ],
   "note": "Column depths of the detector model are shown to satisfy the hypotheses (C110_column). Depth zero is not considered for distances."
  },
  {
   "property": "C111",
   "status": "partial",
   "theorems": [
    "C111_within",
    "C111_within_detector",
    "C111_frames",
    "C111_distance",
    "C111_infinite",
    "C111_beyond_refuted",
    "C111_frames_refuted"
   ],
   "note": "Refuted: the test in the detector frame has a tolerance of a millimetre that the one in the geometry frame lacks, and the distance is not limited by the length of the path."
  },
  {
   "property": "C112",
   "status": "proved",
   "theorems": [
    "C112_hit",
    "C112_found",
    "C112_along"
   ],
   "note": ""
  },
  {
   "property": "C113",
   "status": "partial",
   "theorems": [
    "C113_build",
    "C113_safe",
    "C113_search",
    "C113_crossings",
    "C113_rounding_refuted",
    "C113_many_refuted"
   ],
   "note": "Complete for coordinates representable as floats and at most 65535 triangles; C113_rounding_refuted and C113_many_refuted show that neither can be dropped."
  },
  {
   "property": "C114",
   "status": "partial",
   "theorems": [
    "C114_given",
    "C114_covered",
    "C114_touch_refuted"
   ],
   "note": "Proved for order, spacing and coverage; C114_touch_refuted: touching an edge gives one crossing of unspecified sense."
  },
  {
   "property": "C115",
   "status": "proved",
   "theorems": [
    "C115_closed",
    "C115_report",
    "C115_empty",
    "C115_place",
    "C115_turned_refuted",
    "C115_flat_refuted",
    "C115_near_refuted"
   ],
   "note": "What is not tested: orientation, proper triangles, nearness (three refutations)."
  },
  {
   "property": "C116",
   "status": "proved",
   "theorems": [
    "C116_balance",
    "C116_even",
    "C116_found"
   ],
   "note": ""
  },
  {
   "property": "C117",
   "status": "proved",
   "theorems": [
    "C117_crossings",
    "C117_bounds",
    "C117_radii",
    "C117_rim_refuted"
   ],
   "note": "Crossings, bounding box and order of radii; without the angular cut. C117_rim_refuted: passing a rim within the precision gives a lone exit."
  },
  {
   "property": "C118",
   "status": "proved",
   "theorems": [
    "C118_crossings",
    "C118_bounds",
    "C118_make",
    "C118_tangent_refuted",
    "C118_pole_refuted"
   ],
   "note": "Crossings, bounding box and constructor. Outside the hypotheses: a tangent gives a lone exit, a line just past a pole a lone entry."
  },
  {
   "property": "C119",
   "status": "proved",
   "theorems": [
    "C119_crossings",
    "C119_bounds",
    "C119_rim_refuted"
   ],
   "note": "Crossings and bounding box. Outside the hypotheses: a line just past a rim exits before it enters."
  },
  {
   "property": "C120",
   "status": "proved",
   "theorems": [
    "C120_crossings",
    "C120_bounds",
    "C120_edge_refuted",
    "C120_thin_refuted"
   ],
   "note": "Crossings and bounding box. Outside the hypotheses: a line through an edge enters twice, and thin trapezoids have no sides."
  },
  {
   "property": "C121",
   "status": "proved",
   "theorems": [
    "C121_make",
    "C121_crossings",
    "C121_bounds",
    "C121_parallel_refuted"
   ],
   "note": "Crossings, bounding box and constructor. Outside the hypotheses (nearly parallel lines): C121_parallel_refuted."
  },
  {
   "property": "C122",
   "status": "partial",
   "theorems": [
    "C122_planes",
    "C122_crossings",
    "C122_bounds",
    "C122_valid",
    "C122_wedge_refuted",
    "C122_twisted_refuted"
   ],
   "note": "Proved for flat sides that have not shrunk. The constructor also accepts wedges and twisted shapes, for which it is refuted: C122_wedge_refuted (infinite distances), C122_twisted_refuted."
  },
  {
   "property": "C123",
   "status": "proved",
   "theorems": [
    "C123_letters",
    "C123_distinct",
    "C123_onto",
    "C123_axes"
   ],
   "note": ""
  },
  {
   "property": "C124",
   "status": "proved",
   "theorems": [
    "C124_turns",
    "C124_special"
   ],
   "note": ""
  },
  {
   "property": "C125",
   "status": "partial",
   "theorems": [
    "C125_static",
    "C125_turning",
    "C125_turning_refuted"
   ],
   "note": "Orders with fixed axes proved. For moving axes the code swaps alpha and beta in place of alpha and gamma: refuted, and the rotation it does make is stated."
  },
  {
   "property": "C126",
   "status": "proved",
   "theorems": [
    "C126_recovers",
    "C126_near",
    "C126_never_throws",
    "C126_close_refuted"
   ],
   "note": "Exact off the threshold and at the pole, within 32 epsilon everywhere; exactness between the pole and the threshold refuted."
  },
  {
   "property": "C127",
   "status": "partial",
   "theorems": [
    "C127_unit",
    "C127_special",
    "C127_matrix",
    "C127_not_unit_refuted"
   ],
   "note": "Unit quaternions proved for all orders; the two special forms for every quaternion but 0. The general form refuted for quaternions that are not unit."
  },
  {
   "property": "C128",
   "status": "partial",
   "theorems": [
    "C128_product",
    "C128_index",
    "C128_write",
    "C128_bounds",
    "C128_out_of_bounds_refuted"
   ],
   "note": "Algebra and indices 0 to 2 proved; indices of 4 and more wrap around modulo 4: refuted."
  },
  {
   "property": "C129",
   "status": "proved",
   "theorems": [
    "C129_exact",
    "C129_close",
    "C129_empty",
    "C129_band_refuted"
   ],
   "note": "Exact outside the band in which the code neglects the quadratic term, with an error bound for every quadratic on cosines; inside the band it is not exact (C129_band_refuted)."
  },
  {
   "property": "C130",
   "status": "proved",
   "theorems": [
    "C130_weight",
    "C130_average",
    "C130_close",
    "C130_density"
   ],
   "note": "Weight, average and density; the average is exact when neither quadratic is in the band of C129 and within the stated bound always."
  },
  {
   "property": "C131",
   "status": "partial",
   "theorems": [
    "C131_conserved",
    "C131_transfer",
    "C131_hadrons",
    "C131_mass_refuted"
   ],
   "note": "Holds when the record carries the table's mass of the meson; refuted otherwise, since the rest frame uses particleMass and the boost primary_mass."
  },
  {
   "property": "C132",
   "status": "partial",
   "theorems": [
    "C132_total",
    "C132_modes",
    "C132_others",
    "C132_conserved",
    "C132_conjugate",
    "C132_repeated_refuted",
    "C132_order_refuted"
   ],
   "note": "All but the last clause holds; types are compared as sets, so repeated or reordered secondaries also have a width (two refuting theorems)."
  },
  {
   "property": "C133",
   "status": "partial",
   "theorems": [
    "C133_mixture",
    "C133_keys",
    "C133_cache",
    "C133_value",
    "C133_key_refuted"
   ],
   "note": "Holds for mesons with the table's masses; the rounded key of the cache is shared by other masses (C133_key_refuted)."
  },
  {
   "property": "C134",
   "status": "proved",
   "theorems": [
    "C134_trapezium",
    "C134_refinement",
    "C134_reversed",
    "C134_sorted_refuted"
   ],
   "note": "The exchange of descending bounds in the constructor has no effect (C134_sorted_refuted)."
  },
  {
   "property": "C135",
   "status": "proved",
   "theorems": [
    "C135_exact",
    "C135_converges",
    "C135_reversed",
    "C135_zero_refuted",
    "C135_alias_refuted"
   ],
   "note": "Outside the statement: an integral that is exactly zero may never be accepted (C135_zero_refuted), and a function vanishing at the first seventeen points gets the integral zero (C135_alias_refuted)."
  },
  {
   "property": "C136",
   "status": "proved",
   "theorems": [
    "C136_exact",
    "C136_converges",
    "C136_zero_tolerance",
    "C136_small_refuted"
   ],
   "note": "Outside the statement: a tolerance of zero passes the check and never converges (C136_zero_tolerance); a value below the square of the tolerance is accepted at once (C136_small_refuted)."
  },
  {
   "property": "C137",
   "status": "proved",
   "theorems": [
    "C137_sampled",
    "C137_accept",
    "C137_at_rest",
    "C137_cap",
    "C137_reached",
    "C137_momentum_refuted"
   ],
   "note": "Side finding: the total momentum is not conserved (C137_momentum_refuted); the code says so in a comment."
  },
  {
   "property": "C138",
   "status": "proved",
   "theorems": [
    "C138_normalised",
    "C138_support",
    "C138_sampled_positive",
    "C138_total",
    "C138_signatures",
    "C138_negative_refuted"
   ],
   "note": "Side finding: the fitted total cross section is negative far below one GeV (C138_negative_refuted). That the Box-Muller numbers are normally distributed is not stated."
  },
  {
   "property": "C139",
   "status": "proved",
   "theorems": [
    "C139_exactly",
    "C139_once",
    "C139_conjugate"
   ],
   "note": ""
  },
  {
   "property": "C140",
   "status": "proved",
   "theorems": [
    "C140_open",
    "C140_total",
    "C140_nine_channels",
    "C140_record",
    "C140_light_refuted",
    "C140_mixed_refuted"
   ],
   "note": "Side findings: for lighter bosons the total width, calculated with the nominal mass, is not the sum at the mass of the record (C140_light_refuted); TotalDecayWidth gives lepton-number-breaking W decays the full width though they are not listed (C140_mixed_refuted)."
  },
  {
   "property": "C141",
   "status": "proved",
   "theorems": [
    "C141_kept",
    "C141_density",
    "C141_cosine"
   ],
   "note": "The assertion on the mass and the helicities are not modelled."
  },
  {
   "property": "C142",
   "status": "proved",
   "theorems": [
    "C142_meaning",
    "C142_result",
    "C142_sections_refuted"
   ],
   "note": "Side finding: sections still to come count as depth, so that loops in the first of 64 sections are silently left out (C142_sections_refuted)."
  },
  {
   "property": "C143",
   "status": "proved",
   "theorems": [
    "C143_stops",
    "C143_built_in",
    "C143_forever_refuted"
   ],
   "note": "Side finding: a loop whose body sets its variable back is never left (C143_forever_refuted)."
  },
  {
   "property": "C144",
   "status": "proved",
   "theorems": [
    "C144_unrolled",
    "C144_left",
    "C144_values",
    "C144_step"
   ],
   "note": ""
  },
  {
   "property": "C145",
   "status": "proved",
   "theorems": [
    "C145_strip",
    "C145_meaning",
    "C145_numbered",
    "C145_twice_refuted"
   ],
   "note": "Side finding: a name with two addresses loses them one at a time (C145_twice_refuted)."
  },
  {
   "property": "C146",
   "status": "proved",
   "theorems": [
    "C146_kept",
    "C146_sole",
    "C146_others",
    "C146_lost_refuted",
    "C146_order_refuted"
   ],
   "note": "Side findings outside of the hypothesis: a name that looks like a number of another name overwrites it (C146_lost_refuted) or makes the result depend on the order of the hash map (C146_order_refuted)."
  },
  {
   "property": "C147",
   "status": "proved",
   "theorems": [
    "C147_reference",
    "C147_resolved",
    "C147_lookup",
    "C147_shared_refuted"
   ],
   "note": "Side finding: the aliases are shared by elements, materials and solids, so that flattening one changes the meaning of another (C147_shared_refuted)."
  },
  {
   "property": "C148",
   "status": "proved",
   "theorems": [
    "C148_names",
    "C148_parent",
    "C148_entries"
   ],
   "note": ""
  },
  {
   "property": "C149",
   "status": "proved",
   "theorems": [
    "C149_faithful",
    "C149_shallow_refuted"
   ],
   "note": "Outside of the hypothesis: a volume with the same text in both files silently gets the solid of this file (C149_shallow_refuted)."
  },
  {
   "property": "C150",
   "status": "proved",
   "theorems": [
    "C150_shares",
    "C150_one",
    "C150_ratio",
    "C150_mass",
    "C150_repeated_refuted",
    "C150_isotopes_refuted"
   ],
   "note": "Repeated references and elements given by isotopes are shown to break the sum or the shares (refuted theorems); the main statement has distinct names and a positive total."
  },
  {
   "property": "C151",
   "status": "proved",
   "theorems": [
    "C151_resolves",
    "C151_ends",
    "C151_meaning",
    "C151_one",
    "C151_material",
    "C151_cycle",
    "C151_dropped_refuted"
   ],
   "note": "Components without positive Z and A are dropped silently (C151_dropped_refuted); the sum to one asks for proper components."
  },
  {
   "property": "C152",
   "status": "proved",
   "theorems": [
    "C152_child",
    "C152_pieces",
    "C152_loads",
    "C152_determined"
   ],
   "note": ""
  },
  {
   "property": "C153",
   "status": "proved",
   "theorems": [
    "C153_levels",
    "C153_inside",
    "C153_name",
    "C153_borrowed_refuted"
   ],
   "note": "C153_borrowed_refuted: a generated name can take the name of another volume, which is then renamed."
  },
  {
   "property": "C154",
   "status": "partial",
   "theorems": [
    "C154_copies",
    "C154_even",
    "C154_number",
    "C154_expression_refuted"
   ],
   "note": "Numbers of copies given by an expression or a constant are misread (C154_expression_refuted)."
  },
  {
   "property": "C155",
   "status": "proved",
   "theorems": [
    "C155_ends",
    "C155_meaning",
    "C155_skipped",
    "C155_order"
   ],
   "note": "Names defined once and free of pointer suffixes; making a primitive is a parameter (its outcome is part of the node)."
  },
  {
   "property": "C156",
   "status": "partial",
   "theorems": [
    "C156_at_once",
    "C156_suffix_refuted",
    "C156_forward_refuted",
    "C156_repeated_refuted"
   ],
   "note": "Holds where the operands are known; refuted for suffixed operands of deferred booleans, for suffixed names defined further down and for the order of repeated names."
  },
  {
   "property": "C157",
   "status": "proved",
   "theorems": [
    "C157_mass",
    "C157_inside",
    "C157_particles",
    "C157_entry_refuted"
   ],
   "note": "For lines with an outermost sector and points strictly within it; at the entry of a sector the containing-sector query of the same list disagrees (refuted)."
  },
  {
   "property": "C158",
   "status": "proved",
   "theorems": [
    "C158_rate",
    "C158_boundary",
    "C158_decays",
    "C158_depth"
   ],
   "note": "The relation to the depth is for the integrand away from the boundaries of sectors; the assertion on directions is not modelled."
  },
  {
   "property": "C159",
   "status": "proved",
   "theorems": [
    "C159_rises",
    "C159_steps",
    "C159_cumulative",
    "C159_nodes_refuted"
   ],
   "note": "The accessor of the nodes returns an empty list because a local variable hides the member (C159_nodes_refuted)."
  },
  {
   "property": "C160",
   "status": "partial",
   "theorems": [
    "C160_sample",
    "C160_quantile",
    "C160_density",
    "C160_pdf_refuted",
    "C160_first_refuted",
    "C160_gap_refuted"
   ],
   "note": "The inversion is proved; the last sentence is refuted: energies are uniform within a bin while the generation probability follows the flux (C160_pdf_refuted), the number zero can give an energy below the lower bound (C160_first_refuted), and parts without flux are sampled although their generation probability is zero (C160_gap_refuted)."
  },
  {
   "property": "C161",
   "status": "proved",
   "theorems": [
    "C161_point",
    "C161_uniform",
    "C161_density",
    "C161_start",
    "C161_edge_refuted",
    "C161_sector_refuted"
   ],
   "note": "Outside the stated hypotheses: a number at the end of the range gives a vertex of probability zero (C161_edge_refuted); the range of azimuths of a cut cylinder is ignored (C161_sector_refuted)."
  },
  {
   "property": "C162",
   "status": "proved",
   "theorems": [
    "C162_point",
    "C162_uniform",
    "C162_density",
    "C162_start",
    "C162_centre_refuted"
   ],
   "note": "The number 0 gives the centre of a full sphere, which has probability zero (C162_centre_refuted)."
  },
  {
   "property": "C163",
   "status": "proved",
   "theorems": [
    "C163_load",
    "C163_strict",
    "C163_comment_refuted"
   ],
   "note": "Outside the statement: a comment above the header is taken as the header (C163_comment_refuted)."
  },
  {
   "property": "C164",
   "status": "proved",
   "theorems": [
    "C164_record",
    "C164_share",
    "C164_probability",
    "C164_threshold_refuted"
   ],
   "note": "Without an energy column the threshold is not applied to the rows, so a record drawn may have probability zero (C164_threshold_refuted)."
  },
  {
   "property": "C165",
   "status": "proved",
   "theorems": [
    "C165_range",
    "C165_normal",
    "C165_faces",
    "C165_start",
    "C165_extent"
   ],
   "note": "for vectors and lines off the edges by more than the precision; lines through the axis are outside the hypothesis"
  },
  {
   "property": "C166",
   "status": "proved",
   "theorems": [
    "C166_crossings",
    "C166_any",
    "C166_whole",
    "C166_parallel_refuted"
   ],
   "note": "for lines that keep clear of rims, edges and axis; finding: a line parallel to a half plane and outside of it can be given the crossings of the whole cylinder"
  },
  {
   "property": "C167",
   "status": "proved",
   "theorems": [
    "C167_interaction",
    "C167_survival",
    "C167_index",
    "C167_missing",
    "C167_incomplete_refuted"
   ],
   "note": "requires injectors with the same secondaries as the weighter; without that the initialization stops early and the vectors are read beyond their end (C167_incomplete_refuted)"
  },
  {
   "property": "C168",
   "status": "proved",
   "theorems": [
    "C168_accepted",
    "C168_absent",
    "C168_rising"
   ],
   "note": "numbers are the values of the expressions in the document"
  },
  {
   "property": "C169",
   "status": "proved",
   "theorems": [
    "C169_wall",
    "C169_parallel"
   ],
   "note": "lines that run along a wall within the precision are excluded"
  },
  {
   "property": "C170",
   "status": "proved",
   "theorems": [
    "C170_steps",
    "C170_stack",
    "C170_end_refuted"
   ],
   "note": "repeated heights at an end of the list lose their ring (C170_end_refuted)"
  },
  {
   "property": "C171",
   "status": "partial",
   "theorems": [
    "C171_sound",
    "C171_range",
    "C171_light_refuted"
   ],
   "note": "exact for twice the squared energy at least one and masses that are not tiny against it, sound always; for light targets the upper bound is too low because a term lacks a factor (C171_light_refuted)"
  },
  {
   "property": "C172",
   "status": "proved",
   "theorems": [
    "C172_final",
    "C172_edge_refuted"
   ],
   "note": "the number added to the inelasticity leaves the range at its upper end (C172_edge_refuted)"
  },
  {
   "property": "C173",
   "status": "partial",
   "theorems": [
    "C173_table",
    "C173_massless_refuted",
    "C173_target_refuted"
   ],
   "note": "true of the evaluation for a given target mass; the evaluation of an interaction passes the mass of the primary instead (C173_massless_refuted, C173_target_refuted)"
  },
  {
   "property": "C174",
   "status": "proved",
   "theorems": [
    "C174_final",
    "C174_complete"
   ],
   "note": "The primary must be along the x axis or at least 1e-9 (in the cosine) away from it, as for all rotations of this kind (C85)."
  },
  {
   "property": "C175",
   "status": "partial",
   "theorems": [
    "C175_chain",
    "C175_rule",
    "C175_sample",
    "C175_nan_refuted"
   ],
   "note": "Proved when the range of Q2 leaves the outgoing particle more energy than its mass; otherwise a first point with a NaN angle is kept (C175_nan_refuted). Each round follows the Metropolis rule (C175_rule)."
  },
  {
   "property": "C176",
   "status": "partial",
   "theorems": [
    "C176_quotient",
    "C176_transfer_refuted",
    "C176_transfer_partial",
    "C176_target_refuted"
   ],
   "note": "The quotient is proved; the momentum transfer is taken between primary and target (line 58) and the total cross section uses the type of the primary for the target (line 36), both refuted."
  },
  {
   "property": "C177",
   "status": "proved",
   "theorems": [
    "C177_final",
    "C177_complete",
    "C177_square_refuted"
   ],
   "note": "Draws of x and y that no lepton can have give NaN momenta (C177_square_refuted)."
  },
  {
   "property": "C178",
   "status": "partial",
   "theorems": [
    "C178_length",
    "C178_signatures",
    "C178_parents",
    "C178_target_refuted"
   ],
   "note": "Signatures of a pair of parents are right for nucleons; the target is not compared (C178_target_refuted)."
  },
  {
   "property": "C179",
   "status": "proved",
   "theorems": [
    "C179_allowed",
    "C179_lepton"
   ],
   "note": "Massless primaries, as the signatures enforce."
  },
  {
   "property": "C180",
   "status": "proved",
   "theorems": [
    "C180_final"
   ],
   "note": ""
  },
  {
   "property": "C181",
   "status": "partial",
   "theorems": [
    "C181_variables",
    "C181_total",
    "C181_density_refuted"
   ],
   "note": "Variables and sum of totals are proved; the density of one signature is too large by the inverse fragmentation fraction (C181_density_refuted)."
  },
  {
   "property": "C182",
   "status": "partial",
   "theorems": [
    "C182_monotone_partial",
    "C182_table_partial",
    "C182_shift_refuted"
   ],
   "note": "The table increases; it is not the integral by trapezia because pdf_vector has a leading zero and is read with the index of zspline (C182_shift_refuted)."
  },
  {
   "property": "C183",
   "status": "proved",
   "theorems": [
    "C183_threshold",
    "C183_total",
    "C183_unsupported_refuted"
   ],
   "note": "Side finding C183_unsupported_refuted: below the threshold an unsupported primary gets zero instead of the error."
  },
  {
   "property": "C184",
   "status": "partial",
   "theorems": [
    "C184_exact",
    "C184_sound",
    "C184_threshold",
    "C184_dipole_x",
    "C184_dipole_refuted"
   ],
   "note": "Holds for the class with mixing. The check of the dipole class is sound but rejects every point with x up to one half (C184_dipole_x, C184_dipole_refuted)."
  },
  {
   "property": "C185",
   "status": "partial",
   "theorems": [
    "C185_quotient",
    "C185_zero",
    "C185_target_refuted"
   ],
   "note": "Proved for the isoscalar target mass; for other target masses refuted (C185_target_refuted)."
  },
  {
   "property": "C186",
   "status": "proved",
   "theorems": [
    "C186_signatures"
   ],
   "note": "The map of signatures by parents is not modelled."
  },
  {
   "property": "C187",
   "status": "proved",
   "theorems": [
    "C187_construct",
    "C187_run",
    "C187_again_refuted"
   ],
   "note": "Side finding C187_again_refuted: the same injector cannot be made twice from one process."
  },
  {
   "property": "C188",
   "status": "partial",
   "theorems": [
    "C188_placed",
    "C188_density",
    "C188_shared_refuted"
   ],
   "note": "Proved for an injector that is the only one (for the vertex: the last one) made from its process; refuted for shared processes (C188_shared_refuted)."
  },
  {
   "property": "C189",
   "status": "proved",
   "theorems": [
    "C189_wall",
    "C189_parallel"
   ],
   "note": "Both walls, lines bent away from or parallel to the wall. The tip of a pointed cone and the cut in azimuth are not modelled."
  },
  {
   "property": "C190",
   "status": "partial",
   "theorems": [
    "C190_cap",
    "C190_reach_refuted"
   ],
   "note": "Holds with the tolerance on the squares of the radii; that a crossing is within the precision of the cap is refuted for thin cones."
  },
  {
   "property": "C191",
   "status": "partial",
   "theorems": [
    "C191_make",
    "C191_box",
    "C191_negative_refuted"
   ],
   "note": "Exact condition, order and smallest box proved; negative radii at one end are accepted."
  },
  {
   "property": "C192",
   "status": "proved",
   "theorems": [
    "C192_crossings",
    "C192_cut"
   ],
   "note": "Cones without tip; the tip of pointed cones is not modelled."
  }
 ]
}