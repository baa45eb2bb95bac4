{
 "claims": [
  {
   "property": "C01",
   "status": "proved",
   "theorems": [
    "C01_tracking"
   ],
   "note": ""
  },
  {
   "property": "C02",
   "status": "proved",
   "theorems": [
    "C02_rapids_safe",
    "C02_rapids_safe_binary64",
    "C02_rapids_safe_machine"
   ],
   "note": ""
  },
  {
   "property": "C03",
   "status": "proved",
   "theorems": [
    "C03_tool_up_unconditional"
   ],
   "note": ""
  },
  {
   "property": "C04",
   "status": "proved",
   "theorems": [
    "C04_repeat_feed",
    "C04_repeat_command"
   ],
   "note": ""
  },
  {
   "property": "C05",
   "status": "proved",
   "theorems": [
    "C05_no_drift",
    "C05_no_drift_machine"
   ],
   "note": ""
  },
  {
   "property": "C06",
   "status": "proved",
   "theorems": [
    "C06_default_feed",
    "C06_constructor"
   ],
   "note": ""
  },
  {
   "property": "C07",
   "status": "partial",
   "theorems": [
    "C07_feed_sync_partial",
    "C07_feed_sync_refuted"
   ],
   "note": "False of the code: a feed-rate-only G01 is suppressed while the tracked F is updated (C07_feed_sync_refuted, witness history). Proved: sync holds for every history in which no call changes F alone."
  },
  {
   "property": "C08",
   "status": "proved",
   "theorems": [
    "C08_rejections"
   ],
   "note": ""
  },
  {
   "property": "C09",
   "status": "partial",
   "theorems": [
    "C09_feed_rate_partial",
    "C09_feed_rate_refuted"
   ],
   "note": "False of the code: a second feed_rate call raises TypeError (float_eq called with one argument, gcode.py 488-501). Proved: behaviour of the first call; refutation for every later one."
  },
  {
   "property": "C10",
   "status": "proved",
   "theorems": [
    "C10_footer",
    "C10_shift_line"
   ],
   "note": ""
  },
  {
   "property": "C11",
   "status": "proved",
   "theorems": [
    "C11_line_numbers"
   ],
   "note": ""
  },
  {
   "property": "C12",
   "status": "proved",
   "theorems": [
    "C12_comments_off",
    "C12_comments_inert"
   ],
   "note": ""
  },
  {
   "property": "C13",
   "status": "proved",
   "theorems": [
    "C13_digits",
    "C13_clamp",
    "C13_half_ulp"
   ],
   "note": ""
  },
  {
   "property": "C14",
   "status": "partial",
   "theorems": [
    "C14_normalize_partial",
    "C14_normalize_refuted"
   ],
   "note": "Congruence modulo 2*pi proved for every angle; the one-turn range is false of the code (operator precedence at gcode.py 662), refuted with a witness."
  },
  {
   "property": "C15",
   "status": "proved",
   "theorems": [
    "C15_wrap_angles",
    "C15_wrap_congruent"
   ],
   "note": ""
  },
  {
   "property": "C16",
   "status": "partial",
   "theorems": [
    "C16_arc_check_refuted"
   ],
   "note": "False of the code: the radius check compares the I/J radius with itself, so no arc is ever rejected; refuted for every arc, witness of a bad arc written."
  },
  {
   "property": "C17",
   "status": "proved",
   "theorems": [
    "C17_arc_words",
    "C17_arc_unknown_start"
   ],
   "note": ""
  },
  {
   "property": "C18",
   "status": "partial",
   "theorems": [
    "C18_offset_refuted",
    "C18_offset_partial"
   ],
   "note": "False of the code: offsets are added before unit scaling. Proved what is emitted exactly; refuted the documented meaning."
  },
  {
   "property": "C19",
   "status": "proved",
   "theorems": [
    "C19_preview",
    "C19_tool_state",
    "C19_rapid_up"
   ],
   "note": ""
  },
  {
   "property": "C20",
   "status": "proved",
   "theorems": [
    "C20_dwell",
    "C20_spindle_on_first",
    "C20_spindle_off_after"
   ],
   "note": ""
  },
  {
   "property": "C21",
   "status": "partial",
   "theorems": [
    "C21_read_back_partial",
    "C21_normalize_refuted"
   ],
   "note": "Holds for every history without angle normalisation; the G92 \"A=\" line is not readable RS274 (refuted)."
  },
  {
   "property": "C22",
   "status": "partial",
   "theorems": [
    "C22_comments_partial",
    "C22_injection_refuted"
   ],
   "note": "Comments do not change the executed program for comments free of parentheses/newlines; refuted for arbitrary comment text (injection)."
  },
  {
   "property": "C23",
   "status": "proved",
   "theorems": [
    "C23_canonical"
   ],
   "note": ""
  },
  {
   "property": "C24",
   "status": "proved",
   "theorems": [
    "C24_axis_map"
   ],
   "note": ""
  },
  {
   "property": "C25",
   "status": "proved",
   "theorems": [
    "C25_terminates",
    "C25_terminates_paint",
    "C25_diverges",
    "C25_diverges_paint",
    "C25_command_line",
    "C25_zero_diverges_binary64"
   ],
   "note": "Over R for SimpleCAM and PaintCAM; in addition a binary64 theorem for depth 0."
  },
  {
   "property": "C26",
   "status": "proved",
   "theorems": [
    "C26_never_below",
    "C26_never_below_paint",
    "C26_passes",
    "C26_passes_paint"
   ],
   "note": "Heights on the machine for every number type (SimpleCAM; PaintCAM if its soft-landing height z_step and 0 are above z_depth); spacing of the passes over R."
  },
  {
   "property": "C27",
   "status": "partial",
   "theorems": [
    "C27_reached_partial",
    "C27_reached_refuted"
   ],
   "note": "False of the code: the last pass stops above z_depth unless z_depth is a multiple of the step (C27_reached_refuted, depth -5 in steps of -2 ends at -4). Proved: exactly when it is reached, and by how much it is missed otherwise."
  },
  {
   "property": "C28",
   "status": "proved",
   "theorems": [
    "C28_sort_permutes",
    "C28_other_methods",
    "C28_flip",
    "C28_flip_nearest",
    "C28_sorted",
    "C28_stable",
    "C28_flip_first"
   ],
   "note": "Permutation for every number type; order and stability over R; also flip and unknown methods."
  },
  {
   "property": "C29",
   "status": "partial",
   "theorems": [
    "C29_optimize_refuted",
    "C29_optimize_partial",
    "C29_one_band_refuted"
   ],
   "note": "False of the code for every input: optimize raises or loses at least one path (C29_optimize_refuted). Proved: what it returns are given paths."
  },
  {
   "property": "C30",
   "status": "proved",
   "theorems": [
    "C30_rapids_safe",
    "C30_rapids_safe_paint",
    "C30_program",
    "C30_program_paint",
    "C30_ends_up",
    "C30_ends_up_paint"
   ],
   "note": "For every number type with the order laws (R and binary64), whatever the outcome of the job; program shape and final height for completed jobs."
  },
  {
   "property": "C31",
   "status": "partial",
   "theorems": [
    "C31_route",
    "C31_arcs_partial",
    "C31_arcs_refuted_binary64",
    "C31_machine"
   ],
   "note": "Route proved for every number type. Arcs: proved over R when tolerance*sqrt2 < EPS; with equal tolerances, as the command line sets them, refuted in binary64 (an arc is cut as a line)."
  },
  {
   "property": "C32",
   "status": "partial",
   "theorems": [
    "C32_partition",
    "C32_empty",
    "C32_direction_partial",
    "C32_tangent_joint_refuted"
   ],
   "note": "Partition and cutting rule proved in terms of tangent angles. A tangent-continuous joint heading in direction -X is cut (C32_tangent_joint_refuted); elsewhere angle and direction agree."
  },
  {
   "property": "C33",
   "status": "proved",
   "theorems": [
    "C33_normalize_angle",
    "C33_calc_rotation",
    "C33_calc_rotation_near"
   ],
   "note": ""
  },
  {
   "property": "C34",
   "status": "proved",
   "theorems": [
    "C34_compose",
    "C34_compose_assoc",
    "C34_identity",
    "C34_translate",
    "C34_scale",
    "C34_scale_about",
    "C34_rotate",
    "C34_skew",
    "C34_canonicalize",
    "C34_rotate_inverse"
   ],
   "note": ""
  },
  {
   "property": "C35",
   "status": "proved",
   "theorems": [
    "C35_intersection_on_both",
    "C35_intersection_complete",
    "C35_parallel_none",
    "C35_is_parallel"
   ],
   "note": ""
  },
  {
   "property": "C36",
   "status": "proved",
   "theorems": [
    "C36_offset",
    "C36_offset_tiny",
    "C36_extend",
    "C36_extend_from_midpoint",
    "C36_extend_degenerate",
    "C36_shift",
    "C36_reversed",
    "C36_flipped",
    "C36_subdivide",
    "C36_mu",
    "C36_nearest_on_line",
    "C36_nearest_on_segment",
    "C36_midpoint",
    "C36_bisector"
   ],
   "note": ""
  },
  {
   "property": "C37",
   "status": "partial",
   "theorems": [
    "C37_same_side_partial",
    "C37_false_is_right",
    "C37_same_side_refuted",
    "C37_which_side"
   ],
   "note": "False of the code: same_side tests the first point twice (line.py 526). Refuted with a witness; proved exactly what it decides (C37_same_side_partial), that a False answer is right, and that which_side is right."
  },
  {
   "property": "C38",
   "status": "partial",
   "theorems": [
    "C38_inside_triangle_partial",
    "C38_inside_triangle_refuted",
    "C38_outside_accepted_refuted"
   ],
   "note": "False of the code: the sign of one barycentric coordinate is wrong. Proved: no strictly interior point is ever accepted, some outside points are; the exact accepted region is characterised."
  },
  {
   "property": "C39",
   "status": "partial",
   "theorems": [
    "C39_lagrange",
    "C39_distance",
    "C39_unit",
    "C39_normals",
    "C39_rotation_preserves_distance",
    "C39_polar",
    "C39_polar_inverse",
    "C39_angle2",
    "C39_distance_to_line",
    "C39_bisector_partial",
    "C39_bisector_refuted",
    "C39_division",
    "C39_is_zero",
    "C39_orientation",
    "C39_line_projection"
   ],
   "note": "All identities proved except bisector, which may point away from the angle (C39_bisector_refuted); distance_to_line is signed."
  },
  {
   "property": "C40",
   "status": "partial",
   "theorems": [
    "C40_eq_reflexive_symmetric_partial",
    "C40_eq_is_distance",
    "C40_transitive_refuted",
    "C40_hash_refuted",
    "C40_hash_binary64_refuted"
   ],
   "note": "Reflexive and symmetric; equality means distance below EPSILON. Transitivity and equal-implies-equal-hash are refuted (over R and over binary64)."
  },
  {
   "property": "C41",
   "status": "proved",
   "theorems": [
    "C41_box_ordered",
    "C41_box_least",
    "C41_from_points",
    "C41_union",
    "C41_intersection",
    "C41_buffered",
    "C41_clip",
    "C41_clip_none"
   ],
   "note": ""
  },
  {
   "property": "C42",
   "status": "proved",
   "theorems": [
    "C42_point_at",
    "C42_reversed",
    "C42_offset",
    "C42_tangents",
    "C42_center",
    "C42_center_large_sweep_refuted",
    "C42_midpoint"
   ],
   "note": "point_at, reversed, offset, tangents, and the automatic centre for sweeps up to half a turn; the automatic centre is on the wrong side for larger sweeps (C42_center_large_sweep_refuted)."
  },
  {
   "property": "C43",
   "status": "partial",
   "theorems": [
    "C43_subdivide_ccw_partial",
    "C43_subdivide_cw_refuted",
    "C43_at_point_partial"
   ],
   "note": "Counter-clockwise arcs are split correctly; clockwise arcs are never split (refuted for every clockwise arc)."
  },
  {
   "property": "C44",
   "status": "partial",
   "theorems": [
    "C44_circles_complete",
    "C44_line_arc_on_both",
    "C44_line_circle_complete",
    "C44_line_tangent",
    "C44_line_misses",
    "C44_circles_two_points",
    "C44_circles_tangent_equal_partial",
    "C44_circles_tangent_refuted"
   ],
   "note": "Line/arc: sound, complete, tangent and empty cases proved. Circle/circle: exactly the common points are returned unless the circles touch from outside or are concentric (C44_circles_complete); the tangent point is wrong for unequal radii (refuted), right for equal radii."
  },
  {
   "property": "C45",
   "status": "proved",
   "theorems": [
    "C45_point_at",
    "C45_point_at_ends",
    "C45_subdivide",
    "C45_subdivide_outside",
    "C45_derivative1",
    "C45_derivative2",
    "C45_derivative3",
    "C45_from_quadratic",
    "C45_transform"
   ],
   "note": "Over R; within EPSILON of the ends point_at returns the end points."
  },
  {
   "property": "C46",
   "status": "partial",
   "theorems": [
    "C46_reversed_refuted",
    "C46_reversed_not_backwards_refuted",
    "C46_reversed_partial"
   ],
   "note": "False of the code: reversed() swaps an end point with a control point. Proved: it reverses exactly the curves whose first control point is the start point."
  },
  {
   "property": "C47",
   "status": "partial",
   "theorems": [
    "C47_bounding_box_range_partial",
    "C47_area_sign_partial",
    "C47_area_refuted",
    "C47_area_rotate",
    "C47_area_reverse",
    "C47_area_translate",
    "C47_area_triangle",
    "C47_centroid_translate",
    "C47_centroid_defined",
    "C47_centroid_triangle",
    "C47_bounding_box_partial",
    "C47_bounding_box_refuted"
   ],
   "note": "Rotation, reversal, translation, triangles and the centroid are proved. The area has the opposite sign of the documented one (refuted); the bounding box is right only if some coordinate on each axis is positive (refuted for all-negative abscissas)."
  },
  {
   "property": "C48",
   "status": "proved",
   "theorems": [
    "C48_convex_hull",
    "C48_hull_encloses_hull"
   ],
   "note": "For inputs whose distinct points are at least EPSILON apart (the code compares points with tolerance)."
  },
  {
   "property": "C49",
   "status": "partial",
   "theorems": [
    "C49_simplify_partial",
    "C49_flat",
    "C49_negative_tolerance_refuted"
   ],
   "note": "Proved for every tolerance >= 0. A negative tolerance recurses forever on collinear points (refuted)."
  },
  {
   "property": "C50",
   "status": "proved",
   "theorems": [
    "C50_consistent",
    "C50_counts",
    "C50_add_edge",
    "C50_add_poly",
    "C50_remove_edge",
    "C50_example"
   ],
   "note": "For every vertex type with decidable equality, all histories (including calls that raise). Points closer than EPSILON but different are outside the model."
  },
  {
   "property": "C51",
   "status": "proved",
   "theorems": [
    "C51_cull",
    "C51_order_independent",
    "C51_example"
   ],
   "note": "All graphs, all iteration orders; the result is the largest subgraph without dead ends."
  },
  {
   "property": "C52",
   "status": "proved",
   "theorems": [
    "C52_paths",
    "C52_longest_first",
    "C52_empty_raises",
    "C52_example"
   ],
   "note": "All four strategies and every random stream."
  },
  {
   "property": "C53",
   "status": "proved",
   "theorems": [
    "C53_parse_path"
   ],
   "note": "For every number type; all spellings, implicit repetition, relative and absolute commands (paths without S and T; those are C54)."
  },
  {
   "property": "C54",
   "status": "partial",
   "theorems": [
    "C54_smooth_partial",
    "C54_smooth_refuted",
    "C54_chain_refuted"
   ],
   "note": "Proved for S directly after C and T directly after Q (every number type). False in general: after another command the current point is not used, and a chain of S uses the wrong control point (refuted)."
  },
  {
   "property": "C55",
   "status": "partial",
   "theorems": [
    "C55_tokens_partial",
    "C55_characters",
    "C55_token_kinds",
    "C55_exponent_point_refuted"
   ],
   "note": "Proved for every list of items written with separators, or without where a sign, a letter or a second point separates; for every string no character is lost. Refuted: the legal spelling 1e5.5 of two numbers is read as one."
  },
  {
   "property": "C56",
   "status": "partial",
   "theorems": [
    "C56_raises_refuted",
    "C56_only_value_error_partial",
    "C56_well_formed_numbers_partial"
   ],
   "note": "False of the code: malformed numbers and arc flags raise ValueError (refuted). Proved: nothing else is ever raised, and nothing at all on well formed numbers without arcs."
  },
  {
   "property": "C57",
   "status": "proved",
   "theorems": [
    "C57_transform_list",
    "C57_nothing",
    "C57_wrong_case",
    "C57_wrong_case_arguments"
   ],
   "note": "Over R, for every spelling of the list."
  },
  {
   "property": "C58",
   "status": "partial",
   "theorems": [
    "C58_unit2uu",
    "C58_inverse_partial",
    "C58_unparsed",
    "C58_number_refuted",
    "C58_blank_refuted"
   ],
   "note": "unit2uu and the inverse law for text are proved over R; mm, cm and m are within 3e-8 of the true factor. Refuted: uu2unit raises TypeError on every number although documented for floats; a blank after the unit makes it ignored."
  },
  {
   "property": "C59",
   "status": "proved",
   "theorems": [
    "C59_round_trip",
    "C59_parse",
    "C59_raises",
    "C59_raises_iff",
    "C59_blank_refuted"
   ],
   "note": "For every style whose names and values can be written (no colon, semicolon or surrounding blanks); exactly which texts raise is C59_raises_iff. A legal style with blanks after the last semicolon raises (C59_blank_refuted)."
  },
  {
   "property": "C60",
   "status": "partial",
   "theorems": [
    "C60_hex6",
    "C60_hex3",
    "C60_channel_range",
    "C60_channel_integer",
    "C60_infinite_refuted",
    "C60_named",
    "C60_keywords",
    "C60_no_other_keywords",
    "C60_range_partial",
    "C60_negative_refuted",
    "C60_rgb",
    "C60_channel_percent"
   ],
   "note": "Hex, named and rgb() colours are proved over all spellings. False: an infinite percentage raises OverflowError, and #-f-f-f is accepted with a negative channel (refuted)."
  },
  {
   "property": "C61",
   "status": "proved",
   "theorems": [
    "C61_permutation",
    "C61_order",
    "C61_any_order",
    "C61_nothing",
    "C61_explode",
    "C61_explode_elem",
    "C61_shuffle_off_refuted"
   ],
   "note": "Every document and every random stream; every order is possible. The option shuffle=False is ignored when exploding (C61_shuffle_off_refuted)."
  },
  {
   "property": "C62",
   "status": "proved",
   "theorems": [
    "C62_new_same_curve",
    "C62_point_at_on_ellipse",
    "C62_derivatives",
    "C62_foci",
    "C62_new_axes"
   ],
   "note": "Over R: the constructor orders the axes, makes them non-negative and keeps the curve (C62_new_same_curve)."
  },
  {
   "property": "C63",
   "status": "partial",
   "theorems": [
    "C63_from_endpoints_partial",
    "C63_rotation_refuted",
    "C63_flags_refuted"
   ],
   "note": "End points are on an ellipse rotated by -phi instead of phi (refuted for phi), and the sweep/large flags collapse to two arcs (refuted)."
  },
  {
   "property": "C64",
   "status": "partial",
   "theorems": [
    "C64_tool_follows",
    "C64_small_arc_partial",
    "C64_large_arc_refuted",
    "C64_half_turns",
    "C64_half_turns_paint"
   ],
   "note": "Proved over R for every completed SimpleCAM job; on arcs of less than half a turn the tool turns by the sweep. Refuted for sweeps above half a turn: the tool turns the other way (C64_large_arc_refuted)."
  },
  {
   "property": "C65",
   "status": "proved",
   "theorems": [
    "C65_completes"
   ],
   "note": "Over R."
  },
  {
   "property": "C66",
   "status": "proved",
   "theorems": [
    "C66_flatness",
    "C66_line_fallback"
   ],
   "note": "Over R."
  },
  {
   "property": "C67",
   "status": "partial",
   "theorems": [
    "C67_extrema_partial",
    "C67_box",
    "C67_defined",
    "C67_quadratic_refuted"
   ],
   "note": "Sound and complete where defined; raises ZeroDivisionError exactly when a cubic coefficient vanishes, e.g. for every raised quadratic (refuted)."
  },
  {
   "property": "C68",
   "status": "proved",
   "theorems": [
    "C68_length",
    "C68_terminates",
    "C68_fuel_irrelevant",
    "C68_arc_length_exists",
    "C68_converges"
   ],
   "note": "Over R; the arc-length cache is not modelled."
  },
  {
   "property": "C69",
   "status": "proved",
   "theorems": [
    "C69_circle",
    "C69_arc",
    "C69_arc_accuracy"
   ],
   "note": "Over R."
  },
  {
   "property": "C70",
   "status": "partial",
   "theorems": [
    "C70_ellipse_partial",
    "C70_negative_sweep_refuted",
    "C70_tangents",
    "C70_accuracy"
   ],
   "note": "Proved for sweeps from 0 to a full turn: end points, continuity, pieces, tangents at every piece end, and the distance of all inner points (C70_accuracy). False of the code for negative sweeps, for which nothing is returned (C70_negative_sweep_refuted)."
  },
  {
   "property": "C71",
   "status": "proved",
   "theorems": [
    "C71_sine_wave",
    "C71_shape"
   ],
   "note": "Over R: end points, smoothness at the joints, the slope of a sine at the zeros, horizontal tangents at the extremes and monotone in between (C71_shape). The distance from a true sine is not stated."
  },
  {
   "property": "C72",
   "status": "proved",
   "theorems": [
    "C72_total",
    "C72_open",
    "C72_closed",
    "C72_no_corners_open",
    "C72_no_corners_closed"
   ],
   "note": "End points for every number type; absence of failure and absence of corners over R, the latter for joints of lines and arcs of less than half a turn that are not already tangential or reversals."
  },
  {
   "property": "C73",
   "status": "partial",
   "theorems": [
    "C73_covers_partial",
    "C73_terminates",
    "C73_crash_refuted",
    "C73_closed_refuted"
   ],
   "note": "Proved: termination, the pieces cover consecutive intervals of the curve, tangentially joined arcs, and every pair of arcs was within the tolerance at the sampled points unless the depth limit was reached. Pieces may be dropped where the construction gives up (closed curves vanish, refuted) and a smooth curve with a control point at the origin crashes (refuted)."
  },
  {
   "property": "C74",
   "status": "partial",
   "theorems": [
    "C74_arc_from_tangent_partial",
    "C74_behind_refuted",
    "C74_straight_refuted",
    "C74_origin_refuted"
   ],
   "note": "Proved when ptan is ahead of p1. False otherwise, in all cases: behind p1 the arc returned does not lead to p2 (C74_behind_refuted), in line with the end points ZeroDivisionError is raised (C74_straight_refuted), at the origin None is returned (C74_origin_refuted)."
  },
  {
   "property": "C75",
   "status": "proved",
   "theorems": [
    "C75_even_odd",
    "C75_rotate",
    "C75_reverse",
    "C75_translate",
    "C75_convex_inside",
    "C75_convex_outside",
    "C75_hull"
   ],
   "note": "Over R; correctness for strictly convex polygons, invariances for all."
  },
  {
   "property": "C76",
   "status": "partial",
   "theorems": [
    "C76_on_segment_partial",
    "C76_diagonal_refuted",
    "C76_untouched"
   ],
   "note": "Proved: results are parts of the line, untouched lines. A line through two corners of a square is lost (refuted)."
  },
  {
   "property": "C77",
   "status": "partial",
   "theorems": [
    "C77_lowest_after_insertions_partial",
    "C77_lowest_after_cull",
    "C77_add_after_empty_cull_raises",
    "C77_stale_after_removal_refuted",
    "C77_raise_refuted",
    "C77_example"
   ],
   "note": "Proved for insertion histories and after cull_open_edges. False in general: stale after remove_edge (C77_stale_after_removal_refuted); after culling to nothing the next add_edge raises AttributeError (C77_raise_refuted)."
  },
  {
   "property": "C78",
   "status": "proved",
   "theorems": [
    "C78_terminates",
    "C78_faces",
    "C78_example",
    "C78_dead_end_refuted"
   ],
   "note": "Termination for every graph; exact cover of the sides for graphs without dead ends. With dead ends a face may be returned twice (C78_dead_end_refuted)."
  },
  {
   "property": "C79",
   "status": "partial",
   "theorems": [
    "C79_boundary_partial",
    "C79_closed_refuted",
    "C79_dangling_refuted",
    "C79_star_refuted",
    "C79_example",
    "C79_no_dead_ends",
    "C79_no_dead_ends_example"
   ],
   "note": "False of the code: cut short when the boundary visits a vertex twice (C79_closed_refuted), TypeError on a dangling path at the bottom (C79_dangling_refuted). Proved for graphs without dead ends: a walk along edges obeying the turn rule, closed if it needs fewer steps than there are nodes."
  },
  {
   "property": "C80",
   "status": "proved",
   "theorems": [
    "C80_peel",
    "C80_example"
   ],
   "note": "All reachable graphs and polygons."
  },
  {
   "property": "C81",
   "status": "proved",
   "theorems": [
    "C81_longest_paths",
    "C81_empty_raises",
    "C81_example"
   ],
   "note": "Non-empty graphs (an empty graph raises: C81_empty_raises)."
  },
  {
   "property": "C82",
   "status": "proved",
   "theorems": [
    "C82_canonical",
    "C82_first_is_move"
   ],
   "note": "Every string, every number type."
  },
  {
   "property": "C83",
   "status": "proved",
   "theorems": [
    "C83_explode",
    "C83_no_segment_lost"
   ],
   "note": "Every number type."
  },
  {
   "property": "C84",
   "status": "proved",
   "theorems": [
    "C84_transform_attr_round_trip"
   ],
   "note": "Over R."
  },
  {
   "property": "C85",
   "status": "proved",
   "theorems": [
    "C85_element_transform"
   ],
   "note": "Over R; chains of ancestors are given as the list of their attributes."
  },
  {
   "property": "C86",
   "status": "partial",
   "theorems": [
    "C86_view_scale_partial",
    "C86_no_viewbox",
    "C86_origin_refuted",
    "C86_aspect"
   ],
   "note": "Right for viewBoxes at the origin; a viewBox elsewhere gives a wrong scale because the width is computed as x2 - x1 of (min-x, min-y, width, height) (refuted)."
  },
  {
   "property": "C87",
   "status": "partial",
   "theorems": [
    "C87_round_trip",
    "C87_normalise_partial",
    "C87_rgb_refuted",
    "C87_rgb_example",
    "C87_gray_integer",
    "C87_gray_refuted",
    "C87_gray_fraction"
   ],
   "note": "Hex and named colours and integer grays 0-255 are proved. False: rgb() text raises TypeError; numbers outside 0-255 are not colours (refuted)."
  },
  {
   "property": "C88",
   "status": "proved",
   "theorems": [
    "C88_visible",
    "C88_no_parents"
   ],
   "note": "All ancestor chains."
  },
  {
   "property": "C89",
   "status": "partial",
   "theorems": [
    "C89_exploded_partial",
    "C89_moved_refuted"
   ],
   "note": "Exploded pieces keep their place up to the six decimals of the attribute. False for paths that are only moved: the transforms of their ancestors are lost (refuted)."
  },
  {
   "property": "C90",
   "status": "partial",
   "theorems": [
    "C90_tip_follows_partial",
    "C90_no_offset",
    "C90_full_circle_dropped_refuted"
   ],
   "note": "Proved exactly (over R) for every connected path of proper segments whose end points are apart. False for full circles, which are dropped (C90_full_circle_dropped_refuted)."
  },
  {
   "property": "C91",
   "status": "proved",
   "theorems": [
    "C91_no_gaps",
    "C91_total"
   ],
   "note": "Over R."
  },
  {
   "property": "C92",
   "status": "partial",
   "theorems": [
    "C92_fix_G1_partial",
    "C92_unmarked",
    "C92_afresh"
   ],
   "note": "The turning and the end points are proved for every path; that the replacing biarcs form an unbroken chain is C73 (pieces on which biarc_approximation gives up are missing)."
  },
  {
   "property": "C93",
   "status": "proved",
   "theorems": [
    "C93_fits",
    "C93_too_short",
    "C93_no_turn",
    "C93_sound"
   ],
   "note": "Over R, for every pair of lines and every radius of at least EPSILON."
  },
  {
   "property": "C94",
   "status": "proved",
   "theorems": [
    "C94_connected",
    "C94_geom_connected",
    "C94_polyline",
    "C94_geom_polyline",
    "C94_polygon",
    "C94_polygon_trivial",
    "C94_rounds_every_corner",
    "C94_rounds_closed"
   ],
   "note": "Connectedness for every line/arc path; that the result consists of parts of the original for polylines."
  },
  {
   "property": "C95",
   "status": "partial",
   "theorems": [
    "C95_line_then_arc_partial",
    "C95_arc_then_line_partial",
    "C95_line_then_arc_sound_partial",
    "C95_arc_then_arc_partial",
    "C95_shortened_partial",
    "C95_half_disc_refuted"
   ],
   "note": "Line-arc corners are proved. False for an arc that also ends where the line starts: the fillet is made at the wrong corner (C95_half_disc_refuted). Arc-arc corners are proved for arcs under half a turn when only one circle on that side touches both (C95_arc_then_arc_partial); what the fillet leaves of the two segments is C95_shortened_partial (pieces under half a turn)."
  },
  {
   "property": "C96",
   "status": "partial",
   "theorems": [
    "C96_hints",
    "C96_attributes_partial",
    "C96_mark_lost_refuted"
   ],
   "note": "Hints are proved. The ignore_g1 mark of a shortened segment is lost (C96_mark_lost_refuted); arcs cut at half a turn or more from their start are excluded."
  },
  {
   "property": "C97",
   "status": "partial",
   "theorems": [
    "C97_plain",
    "C97_fillets",
    "C97_connected_partial",
    "C97_ends",
    "C97_tip_follows",
    "C97_tiny_piece_refuted"
   ],
   "note": "Missing: connectedness with path_preserve_g1 on (C92) and of curves on which biarc_approximation leaves out pieces (C73). False: a drawing with a tiny segment between two corners stops the job with IndexError (C97_tiny_piece_refuted)."
  },
  {
   "property": "C98",
   "status": "proved",
   "theorems": [
    "C98_position",
    "C98_position_others",
    "C98_axis_offset",
    "C98_axis_scale",
    "C98_given_unique",
    "C98_map_axis",
    "C98_words_named",
    "C98_units",
    "C98_tolerance",
    "C98_spindle",
    "C98_blending"
   ],
   "note": "Any number type."
  },
  {
   "property": "C99",
   "status": "proved",
   "theorems": [
    "C99_tool_down"
   ],
   "note": "For the default plunge sequence (no alternative tool-down G-code) and every tolerance that the difference of equal values does not exceed."
  },
  {
   "property": "C100",
   "status": "partial",
   "theorems": [
    "C100_header_partial",
    "C100_second_header_refuted"
   ],
   "note": "Proved for the first header of a generator. False for a second one: it stops with TypeError (C100_second_header_refuted)."
  },
  {
   "property": "C101",
   "status": "partial",
   "theorems": [
    "C101_distance_partial",
    "C101_over_arc",
    "C101_beside_arc",
    "C101_full_circle_refuted"
   ],
   "note": "Proved for arcs of less than a full turn, not closer than the tolerance to (but possibly exactly) half a turn. False for full circles, which are treated as their start point (C101_full_circle_refuted)."
  },
  {
   "property": "C102",
   "status": "partial",
   "theorems": [
    "C102_isometry_partial",
    "C102_scale_refuted",
    "C102_distorting",
    "C102_mirror_refuted",
    "C102_major_refuted"
   ],
   "note": "Proved for rotations, axis mirrorings and translations of arcs of at most half a turn. False for scaling (C102_scale_refuted), mirroring at the diagonal (C102_mirror_refuted) and arcs of more than half a turn, even by the identity (C102_major_refuted)."
  },
  {
   "property": "C103",
   "status": "partial",
   "theorems": [
    "C103_small_partial",
    "C103_large_refuted"
   ],
   "note": "Proved for the small arc. False for the large one (C103_large_refuted)."
  },
  {
   "property": "C104",
   "status": "partial",
   "theorems": [
    "C104_minor_complete_partial",
    "C104_minor_sound_partial",
    "C104_major",
    "C104_major_end_refuted",
    "C104_half_turn_refuted"
   ],
   "note": "Proved up to half a turn. False for half a turn (C104_half_turn_refuted) and for the end points of longer arcs (C104_major_end_refuted)."
  },
  {
   "property": "C105",
   "status": "partial",
   "theorems": [
    "C105_height_partial",
    "C105_height_major_refuted",
    "C105_areas",
    "C105_length",
    "C105_mu"
   ],
   "note": "The height is wrong for arcs of more than half a turn (C105_height_major_refuted); mu is proved up to half a turn."
  },
  {
   "property": "C106",
   "status": "partial",
   "theorems": [
    "C106_coincident",
    "C106_equal",
    "C106_parallel_inline",
    "C106_point_on_line",
    "C106_segment_points",
    "C106_side_of_direction",
    "C106_slope",
    "C106_vertical",
    "C106_from_polar",
    "C106_ccw_angle",
    "C106_box_center",
    "C106_point_inside",
    "C106_all_inside",
    "C106_box_transform_partial",
    "C106_box_rotate_refuted"
   ],
   "note": "False: a box rotated by Box.transform can lose points (C106_box_rotate_refuted)."
  },
  {
   "property": "C107",
   "status": "proved",
   "theorems": [
    "C107_reversed",
    "C107_unbroken"
   ],
   "note": "For segments of positive length."
  },
  {
   "property": "C108",
   "status": "partial",
   "theorems": [
    "C108_sound",
    "C108_complete_partial",
    "C108_leftwards_refuted"
   ],
   "note": "Soundness is proved. False: a line and an arc that meet in the direction of the negative x axis are refused (C108_leftwards_refuted)."
  },
  {
   "property": "C109",
   "status": "partial",
   "theorems": [
    "C109_tangent",
    "C109_start",
    "C109_end",
    "C109_normal",
    "C109_angles",
    "C109_straight_refuted"
   ],
   "note": "False for a straight curve with both control points at its start: the tangent returned is the zero vector (C109_straight_refuted). Everything else is proved."
  },
  {
   "property": "C110",
   "status": "partial",
   "theorems": [
    "C110_inflections_partial",
    "C110_no_inflection",
    "C110_symmetric",
    "C110_linear_refuted"
   ],
   "note": "Proved for curves whose bending is a quadratic or constant function of the parameter and for symmetric ones. False if it is linear: the inflection is missed (C110_linear_refuted). With imaginary set, the numbers returned for a curve without inflections are only bounded."
  },
  {
   "property": "C111",
   "status": "partial",
   "theorems": [
    "C111_theta2t",
    "C111_pointt",
    "C111_range_refuted"
   ],
   "note": "False: the parameter can be negative for an angle between 0 and a full turn (C111_range_refuted). Everything else is proved."
  },
  {
   "property": "C112",
   "status": "partial",
   "theorems": [
    "C112_inside",
    "C112_all_inside",
    "C112_flat_refuted"
   ],
   "note": "False for a flat ellipse: ZeroDivisionError (C112_flat_refuted). Tilts that are not zero but smaller than the tolerance are left out."
  },
  {
   "property": "C113",
   "status": "partial",
   "theorems": [
    "C113_area",
    "C113_eccentricity",
    "C113_curvature_partial",
    "C113_curvature_refuted"
   ],
   "note": "Curvature: proved for points given relative to the centre and the axes; false for points of the ellipse in page coordinates (C113_curvature_refuted)."
  },
  {
   "property": "C114",
   "status": "partial",
   "theorems": [
    "C114_from_center_partial",
    "C114_tilt_refuted"
   ],
   "note": "Proved without tilt. False with it: the tilt is not applied (C114_tilt_refuted)."
  },
  {
   "property": "C115",
   "status": "partial",
   "theorems": [
    "C115_rhombus_partial",
    "C115_rectangle_refuted"
   ],
   "note": "Proved for rhombi with the default eccentricity. False for rectangles: the ellipse sticks out (C115_rectangle_refuted)."
  },
  {
   "property": "C116",
   "status": "proved",
   "theorems": [
    "C116_is_closed",
    "C116_empty_raises",
    "C116_round_trip",
    "C116_closed",
    "C116_integers"
   ],
   "note": "Over R."
  },
  {
   "property": "C117",
   "status": "proved",
   "theorems": [
    "C117_build_paths",
    "C117_longest_paths",
    "C117_example"
   ],
   "note": "All four strategies and every random stream, for every geometry whose angle comparison is an order (integer points: zgeo_turns; the angle2 model over the reals: rgeo_turns)."
  },
  {
   "property": "C118",
   "status": "partial",
   "theorems": [
    "C118_stroke",
    "C118_paths",
    "C118_completes",
    "C118_no_overshoot_refuted",
    "C118_reload_refuted",
    "C118_example"
   ],
   "note": "Proved for all strokes that complete (C118_stroke, C118_paths, C118_completes). False of the code: UnboundLocalError for a soft lift-off after no overshoot (C118_no_overshoot_refuted); with brush reloading enabled no job completes, as the path counter it reads does not exist (C118_reload_refuted)."
  },
  {
   "property": "C119",
   "status": "proved",
   "theorems": [
    "C119_travel",
    "C119_example"
   ],
   "note": "Unsorted jobs from the first path on; with path_tool_fillet, path_tool_offset and path_smooth_fillet off, as in the model of preprocessing used for whole jobs."
  },
  {
   "property": "C120",
   "status": "partial",
   "theorems": [
    "C120_path_partial"
   ],
   "note": "Proved for every drawing whose arcs are circular, short way round and neither tiny nor half a circle (the other arcs: see C121); as C54_smooth, smooth commands only after their own kind."
  },
  {
   "property": "C121",
   "status": "partial",
   "theorems": [
    "C121_circular_partial",
    "C121_zero_radius",
    "C121_large_refuted",
    "C121_small_radius_refuted",
    "C121_half_refuted",
    "C121_same_point_refuted",
    "C121_ellipse_lost_refuted",
    "C121_rotation_refuted"
   ],
   "note": "Proved for circular arcs the short way round (C121_circular_partial) and for zero radii. False of the code: the large flag takes the other part of the circle, too small radii are kept, half circles ignore the flags, coinciding end points raise, elliptical arcs with equal flags vanish, the rotation is taken as radians."
  },
  {
   "property": "C122",
   "status": "partial",
   "theorems": [
    "C122_rect",
    "C122_circle",
    "C122_ellipse",
    "C122_polyline",
    "C122_polygon_refuted",
    "C122_polygon_open_refuted",
    "C122_line_refuted",
    "C122_points_refuted",
    "C122_units_refuted"
   ],
   "note": "Proved for rect, circle, ellipse and polyline. False of the code: polygons raise TypeError or stay open, a line is returned without its list and cannot be placed, units are refused, point lists must be written with commas."
  },
  {
   "property": "C123",
   "status": "partial",
   "theorems": [
    "C123_placement_partial",
    "C123_no_transform_refuted",
    "C123_loop_lost_refuted",
    "C123_elements"
   ],
   "note": "Proved for lines, curves and, under rigid motions, arcs up to half a turn (arcs under other maps: C102); False: an element without a transform of its own below a parent transform raises, closed curves are lost."
  },
  {
   "property": "C124",
   "status": "partial",
   "theorems": [
    "C124_shapes",
    "C124_given_transform",
    "C124_hidden",
    "C124_selection",
    "C124_every_picture",
    "C124_only_shapes",
    "C124_comment_refuted",
    "C124_use_loop_refuted",
    "C124_visible_child_refuted",
    "C124_display_attribute_refuted",
    "C124_labelled_group_refuted",
    "C124_symbol_refuted",
    "C124_no_selection",
    "C124_default_shapes"
   ],
   "note": "Proved for documents of elements whose uses end somewhere (C124_every_picture). False of the code: a comment in the document raises, a use that refers to a group around itself recurses for ever, a visible child of a hidden group is left out, the display attribute is ignored, an ordinary group with a label counts as a layer, the contents of symbols are never found."
  },
  {
   "property": "C125",
   "status": "partial",
   "theorems": [
    "C125_margins",
    "C125_svg_top_refuted"
   ],
   "note": "Proved with the first number at the end of larger y, the third at y = 0 (C125_margins). In SVG coordinates, in which y grows downwards, that swaps top and bottom (C125_svg_top_refuted)."
  },
  {
   "property": "C126",
   "status": "partial",
   "theorems": [
    "C126_find",
    "C126_new_layer",
    "C126_existing_layer",
    "C126_suffix_text",
    "C126_suffix",
    "C126_again_refuted",
    "C126_opacity",
    "C126_exponents",
    "C126_flip",
    "C126_no_flip",
    "C126_flip_exact_refuted"
   ],
   "note": "All proved for layers that were in the document. False: a layer just created by create_layer is not found again, a second call creates a second one (C126_again_refuted). With flipy, h is exact for heights of at most six digits, otherwise rounded to six (C126_flip_exact_refuted: A4 is flipped about 1122.52 instead of 1122.51969)."
  },
  {
   "property": "C127",
   "status": "proved",
   "theorems": [
    "C127_parent_layer",
    "C127_sublayers",
    "C127_visible_layers",
    "C127_layer_elements",
    "C127_locked"
   ],
   "note": "get_parent_layer: for documents without layers inside layers exactly the layer of the node; with nested ones the outermost is returned (C127_sublayers)."
  },
  {
   "property": "C128",
   "status": "partial",
   "theorems": [
    "C128_absolute",
    "C128_relative",
    "C128_home",
    "C128_first",
    "C128_next",
    "C128_suffix_path",
    "C128_order_refuted",
    "C128_ten_thousand_refuted",
    "C128_short_number_refuted",
    "C128_short_name_refuted",
    "C128_missing_name_refuted",
    "C128_empty_refuted",
    "C128_example",
    "C128_unnamed",
    "C128_directory_refuted",
    "C128_walks_some",
    "C128_walks_unique",
    "C128_dotted",
    "C128_two_slashes",
    "C128_dotted_example",
    "C128_dotted_relative",
    "C128_dotted_relative_example"
   ],
   "note": "Proved for paths without . and .. components, and for series of four digit numbers the highest of which is listed last and below 9999. False of the code: the listing is not sorted, so that existing files can be overwritten; the same after 9999; other numbers garble the name or raise UnboundLocalError; the default directory and name are never used."
  },
  {
   "property": "C129",
   "status": "partial",
   "theorems": [
    "C129_drawing",
    "C129_nothing",
    "C129_skipped_layers",
    "C129_machine"
   ],
   "note": "Proved for rects, polylines and paths of straight lines, with the tangent tool, fillets, smoothing, brush extras and sorting switched off (the parts themselves: C43-C48, C92-C97, C118, C120-C124)."
  },
  {
   "property": "C130",
   "status": "proved",
   "theorems": [
    "C130_one_move",
    "C130_only_there"
   ],
   "note": ""
  },
  {
   "property": "C131",
   "status": "partial",
   "theorems": [
    "C131_units",
    "C131_no_units",
    "C131_lengths",
    "C131_accuracy",
    "C131_safe_height",
    "C131_safe_height_refuted"
   ],
   "note": "Proved for the choice of units and for all lengths of the drawing. False of the code: the safe height, given in machine units, is taken as user units (C131_safe_height, C131_safe_height_refuted); documents in units that are neither raise NameError. A millimetre is 3.543307 user units, which is accurate to a ten millionth."
  },
  {
   "property": "C132",
   "status": "partial",
   "theorems": [
    "C132_spindle_start_refuted",
    "C132_spindle_path",
    "C132_edge_speed_refuted",
    "C132_no_width",
    "C132_tool_wait_refuted",
    "C132_skip_refuted",
    "C132_settings",
    "C132_header"
   ],
   "note": "Proved: C132_settings, C132_header, C132_spindle_path. False of the code: mode start never starts the spindle, the edge turns at a quarter of the feed rate, a tool of width 0 raises, the tool wait is a thousandth of that given, skip_path_count has no effect."
  },
  {
   "property": "C133",
   "status": "partial",
   "theorems": [
    "C133_bool",
    "C133_numbers",
    "C133_default_refuted",
    "C133_no_document_refuted",
    "C133_km_refuted"
   ],
   "note": "Proved for all values that are given (C133_bool, C133_numbers). False of the code: defaults are not converted, without a file argument lengths raise AttributeError, in documents in km they raise KeyError."
  },
  {
   "property": "C134",
   "status": "partial",
   "theorems": [
    "C134_page",
    "C134_no_viewbox",
    "C134_plain_svg_refuted",
    "C134_no_size_refuted",
    "C134_origin_refuted"
   ],
   "note": "Proved for viewBoxes that start at 0,0 and have the shape of the page, and without a viewBox. False of the code: other origins give a wrong height, documents without a namedview element or without a size raise."
  },
  {
   "property": "C135",
   "status": "partial",
   "theorems": [
    "C135_brush",
    "C135_point_refuted",
    "C135_tip",
    "C135_tangent_only"
   ],
   "note": "Proved for drawings of straight lines without sorting and fillets (C135_brush, C135_tip, C135_tangent_only). False of the code: with overshoot or soft landing a stroke that shrinks to a point stops the job with IndexError and nothing is written (C135_point_refuted)."
  },
  {
   "property": "C136",
   "status": "partial",
   "theorems": [
    "C136_commands_partial",
    "C136_nothing",
    "C136_read_back",
    "C136_large_arc_refuted"
   ],
   "note": "C136_commands_partial covers all paths whose arcs are at most half a turn; C136_read_back lines and curves (a rounded arc has no unique centre, so no bound is stated for points on arcs). False of the code for longer arcs: the large-arc flag is always 0 (C136_large_arc_refuted). A path with an elliptical arc raises TypeError in the model and is not part of the claim."
  },
  {
   "property": "C137",
   "status": "proved",
   "theorems": [
    "C137_polygon",
    "C137_line",
    "C137_curve",
    "C137_circular_arc",
    "C137_ellipse"
   ],
   "note": "Over R."
  },
  {
   "property": "C138",
   "status": "partial",
   "theorems": [
    "C138_line_svg_path",
    "C138_curve_svg_path",
    "C138_arc_svg_path_partial",
    "C138_arc_svg_path_refuted"
   ],
   "note": "False of the code for arcs of more than half a turn, which are written as the short arc (C138_arc_svg_path_refuted); proved for lines, curves and other arcs."
  },
  {
   "property": "C139",
   "status": "partial",
   "theorems": [
    "C139_path_layer",
    "C139_total",
    "C139_total_toolmarks",
    "C139_unplaced_refuted",
    "C139_program",
    "C139_written",
    "C139_toolmarks_start"
   ],
   "note": "Proved for all programs without tool marks (C139_program) and with them where the angle is known (C139_total_toolmarks), over R. False of the code before X and Y are known (C139_unplaced_refuted: TypeError); tool_up/tool_down replaced by custom commands are outside C139_program."
  },
  {
   "property": "C140",
   "status": "partial",
   "theorems": [
    "C140_short",
    "C140_long_refuted",
    "C140_full_circle_refuted",
    "C140_marks"
   ],
   "note": "Proved for arcs of less than half a turn. False of the code for longer arcs (drawn on the other side of the chord) and full circles (drawn as nothing)."
  },
  {
   "property": "C141",
   "status": "partial",
   "theorems": [
    "C141_tool_marks",
    "C141_spacing",
    "C141_zero_interval_refuted",
    "C141_normalized_refuted",
    "C141_first_feed"
   ],
   "note": "Over R, for at most 1/EPSILON steps (beyond that the loop adds marks past the end) and wherever the arc data agree. False of the code for an interval of zero (ZeroDivisionError) and after normalize_axis_angle, which the plotter is not told of (marks spin by at least a turn)."
  },
  {
   "property": "C142",
   "status": "partial",
   "theorems": [
    "C142_chain",
    "C142_plain_partial",
    "C142_single_mark_refuted",
    "C142_closed_refuted",
    "C142_no_marks_refuted",
    "C142_reversals",
    "C142_unfinished_refuted",
    "C142_switched_off",
    "C142_drawn",
    "C142_begun",
    "C142_written"
   ],
   "note": "C142_chain covers the removal of loops for all runs; C142_reversals the removal of reversals, for all runs in which every spike is overtaken again (or is at the very end): the side stays unbroken, from the first mark to the last, and has no other corners. False of the code: a spike that is never overtaken breaks the side (C142_unfinished_refuted), a closed side collapses to a point, marks that all coincide raise IndexError, without tool marks no outline is drawn."
  },
  {
   "property": "C143",
   "status": "partial",
   "theorems": [
    "C143_horizontal",
    "C143_vertical",
    "C143_inverted_refuted",
    "C143_inside",
    "C143_slope",
    "C143_rotated_refuted"
   ],
   "note": "Proved for horizontal and vertical sets with constant spacing (C143_horizontal, C143_vertical) and, for all settings, that nothing lies outside the rectangle. False of the code: rotated lines rise by sin a instead of tan a, and the inverted variable spacing, on by default for vertical lines, puts all lines 1/10 apart."
  },
  {
   "property": "C144",
   "status": "proved",
   "theorems": [
    "C144_direction",
    "C144_grid"
   ],
   "note": "Jitter, random lines and the shuffling itself enter as arbitrary permutations and numbers."
  },
  {
   "property": "C145",
   "status": "proved",
   "theorems": [
    "C145_paths",
    "C145_connectors",
    "C145_one_path"
   ],
   "note": ""
  },
  {
   "property": "C146",
   "status": "partial",
   "theorems": [
    "C146_ends",
    "C146_zero_refuted"
   ],
   "note": "Proved for positive spacings. False of the code for a spacing of 0, which loops for ever."
  },
  {
   "property": "C147",
   "status": "partial",
   "theorems": [
    "C147_tiles",
    "C147_rhombus",
    "C147_acute",
    "C147_obtuse",
    "C147_cross",
    "C147_rect",
    "C147_vertex_cross",
    "C147_vertex_acute_partial",
    "C147_vertex_obtuse_partial",
    "C147_vertex_acute_refuted",
    "C147_example"
   ],
   "note": "Over R. False of the code for the vertex types: acute and obtuse ignore the angle of the tile (C147_vertex_acute_refuted)."
  },
  {
   "property": "C148",
   "status": "partial",
   "theorems": [
    "C148_once",
    "C148_odd_total",
    "C148_even_refuted"
   ],
   "note": "Over R. False in exact arithmetic for every even symmetry: opposite directions have equal slopes and a division by zero is raised (in floating point it depends on rounding)."
  },
  {
   "property": "C149",
   "status": "proved",
   "theorems": [
    "C149_pause",
    "C149_dwell_text",
    "C149_nonmodal",
    "C149_plain"
   ],
   "note": "For the parameter letters X Y Z I J R A F (the others are never transformed and not modelled)."
  },
  {
   "property": "C150",
   "status": "partial",
   "theorems": [
    "C150_polyline",
    "C150_curves_first",
    "C150_curves_only",
    "C150_lost_refuted",
    "C150_swapped_refuted"
   ],
   "note": "Proved for paths of lines, after curves, and without lines (C150_polyline, C150_curves_first, C150_curves_only). False of the code for other mixtures: a segment after two or more lines is lost, a single line is moved behind the next curve."
  },
  {
   "property": "C151",
   "status": "partial",
   "theorems": [
    "C151_copies",
    "C151_straight",
    "C151_scaled_refuted"
   ],
   "note": "The copies are moved in the coordinates of their element: proved in general (C151_copies) and, for elements that are only translated, in the coordinates of the parent (C151_straight). False of the code for scaled or turned elements."
  },
  {
   "property": "C152",
   "status": "partial",
   "theorems": [
    "C152_polylines",
    "C152_spacing",
    "C152_zero_length_refuted"
   ],
   "note": "Proved for rays with a length. False of the code if a ray has none, when a division by zero is raised."
  },
  {
   "property": "C153",
   "status": "proved",
   "theorems": [
    "C153_nearest",
    "C153_rays"
   ],
   "note": "For two paths of lines; meeting and being on a segment are up to EPSILON as in C35 and C106."
  },
  {
   "property": "C154",
   "status": "proved",
   "theorems": [
    "C154_counts"
   ],
   "note": "The order of the keys of the Python dictionary is not modelled."
  },
  {
   "property": "C155",
   "status": "partial",
   "theorems": [
    "C155_continuous",
    "C155_empty_refuted",
    "C155_closed",
    "C155_two_refuted"
   ],
   "note": "Equal means nearer than EPSILON. False of the code for closed paths of fewer than three segments, and the empty path raises IndexError."
  },
  {
   "property": "C156",
   "status": "proved",
   "theorems": [
    "C156_exact",
    "C156_bisector"
   ],
   "note": "For every exact arithmetic: reals, and rationals for the executable example."
  },
  {
   "property": "C157",
   "status": "partial",
   "theorems": [
    "C157_exact",
    "C157_vertex",
    "C157_ends",
    "C157_on_line_refuted",
    "C157_nearest_refuted",
    "C157_bracket"
   ],
   "note": "Equidistance and the ends are proved. False of the code: edges whose directions differ by less than 1e-9 count as parallel, so an obsolete event can remain in the queue; then an end lies off its line and a vertex is not nearest to its three points (shown in exact rational arithmetic)."
  },
  {
   "property": "C158",
   "status": "proved",
   "theorems": [
    "C158_counts",
    "C158_triangles",
    "C158_connected",
    "C158_off"
   ],
   "note": "For every number type, so for doubles too."
  },
  {
   "property": "C159",
   "status": "partial",
   "theorems": [
    "C159_reported_partial",
    "C159_every_partial",
    "C159_once_refuted"
   ],
   "note": "Every Delaunay edge has its Voronoi edge and no other edges are reported; false of the code only in that an edge without end points is reported twice."
  },
  {
   "property": "C160",
   "status": "partial",
   "theorems": [
    "C160_ends",
    "C160_few_refuted",
    "C160_vertical_exact_refuted",
    "C160_vertical_refuted"
   ],
   "note": "It always ends. False of the code: an empty diagram for four points or fewer, ZeroDivisionError for points with equal x."
  },
  {
   "property": "C161",
   "status": "partial",
   "theorems": [
    "C161_small",
    "C161_axis_refuted"
   ],
   "note": "Size of the move proved; false of the code for coordinates that are zero, which never move."
  },
  {
   "property": "C162",
   "status": "partial",
   "theorems": [
    "C162_first_partial",
    "C162_third_refuted"
   ],
   "note": "False of the code: p3 returns the second corner."
  },
  {
   "property": "C163",
   "status": "partial",
   "theorems": [
    "C163_part",
    "C163_whole_partial",
    "C163_upright_partial",
    "C163_module_same",
    "C163_equidistant",
    "C163_hull_partial",
    "C163_outside_refuted",
    "C163_outside_example",
    "C163_upright_refuted",
    "C163_endless_refuted",
    "C163_level_refuted",
    "C163_module_refuted"
   ],
   "note": "Whatever is drawn is a part of its edge (so equidistant from two of the points), and edges that begin and end inside are drawn whole. False of the code: an edge that begins outside of the page is dropped even if it crosses it, an unbounded upright edge goes up and down, an edge without ends is a TypeError, and voronoiclip.py uses the wrong end."
  },
  {
   "property": "C164",
   "status": "partial",
   "theorems": [
    "C164_all",
    "C164_some",
    "C164_sides",
    "C164_inside",
    "C164_corners",
    "C164_outside",
    "C164_notch_refuted"
   ],
   "note": "For convex hulls proved in both directions. False of the code for others: an edge with both ends inside is drawn even if it leaves the hull in between."
  },
  {
   "property": "C165",
   "status": "partial",
   "theorems": [
    "C165_outside",
    "C165_sphere",
    "C165_order",
    "C165_rim",
    "C165_inverted",
    "C165_centre_refuted"
   ],
   "note": "False of the code for the centre only: ZeroDivisionError."
  },
  {
   "property": "C166",
   "status": "partial",
   "theorems": [
    "C166_drawing",
    "C166_touching",
    "C166_counts",
    "C166_box",
    "C166_bbox",
    "C166_box_refuted",
    "C166_rects_refuted",
    "C166_rects_twice_refuted",
    "C166_rects_key_refuted",
    "C166_recenter",
    "C166_rects_stay_refuted",
    "C166_rectangle_refuted",
    "C166_place",
    "C166_place_plain",
    "C166_no_region",
    "C166_rectangle",
    "C166_circle"
   ],
   "note": "Tiles, segments, counts of tiles, containment in the box, circle recentring proved. False of the code: the box always reaches to positive coordinates; rectangles are not counted (the wrong table is tested) or raise KeyError, and stay in place when recentring; a clip rectangle cannot be recentred (TypeError)."
  },
  {
   "property": "C167",
   "status": "proved",
   "theorems": [
    "C167_chains",
    "C167_ends"
   ],
   "note": "Coincidence of ends up to EPSILON, as in the code."
  },
  {
   "property": "C168",
   "status": "partial",
   "theorems": [
    "C168_corners",
    "C168_inset",
    "C168_thin",
    "C168_scaled",
    "C168_point_refuted"
   ],
   "note": "Proved for parallelograms (all tiles before projection); for other quadrilaterals the distance to the two adjacent sides. False of the code: a segment without length cannot be scaled (ZeroDivisionError)."
  },
  {
   "property": "C169",
   "status": "partial",
   "theorems": [
    "C169_nested",
    "C169_single",
    "C169_ends",
    "C169_endless_refuted"
   ],
   "note": "The offset operation (Clipper) is a parameter. Ends if it decreases some measure; false of the code for outward offsets: the recursion has no end."
  },
  {
   "property": "C170",
   "status": "proved",
   "theorems": [
    "C170_sides",
    "C170_reach",
    "C170_square",
    "C170_reflex",
    "C170_miter",
    "C170_example"
   ],
   "note": "The raw outline, before the union. Square and miter joins; round joins always fail (C173)."
  },
  {
   "property": "C171",
   "status": "proved",
   "theorems": [
    "C171_to_grid",
    "C171_round_trip",
    "C171_closed"
   ],
   "note": "Exact arithmetic; closedness up to EPSILON, as in the code."
  },
  {
   "property": "C172",
   "status": "proved",
   "theorems": [
    "C172_area",
    "C172_empty",
    "C172_orientation",
    "C172_reversed",
    "C172_example"
   ],
   "note": ""
  },
  {
   "property": "C173",
   "status": "partial",
   "theorems": [
    "C173_offset_partial",
    "C173_zero",
    "C173_clockwise",
    "C173_repeated",
    "C173_round",
    "C173_clockwise_refuted",
    "C173_repeated_refuted",
    "C173_example"
   ],
   "note": "Proved for counterclockwise polygons without repeated vertices and square or miter joins (the union is a parameter). False of the code otherwise: clockwise polygons raise TypeError (the polygons are passed as a tuple and assigned to), a repeated vertex raises IndexError, round joins raise an error at every corner that turns to the side of the offset."
  },
  {
   "property": "C174",
   "status": "partial",
   "theorems": [
    "C174_limit_refuted",
    "C174_limit_partial",
    "C174_example"
   ],
   "note": "False of the code: the limit is multiplied with the resolution of the grid (10^6); proved with that limit."
  },
  {
   "property": "C175",
   "status": "proved",
   "theorems": [
    "C175_sine_wave"
   ],
   "note": "For documents in which no layer has that name (its suffix is C125); the scaling of the style is a parameter."
  },
  {
   "property": "C176",
   "status": "proved",
   "theorems": [
    "C176_horizontal",
    "C176_vertical",
    "C176_no_jitter"
   ],
   "note": "Horizontal and vertical lines (rotated ones: C143). The logarithm of the log formula and the random numbers are parameters."
  },
  {
   "property": "C177",
   "status": "proved",
   "theorems": [
    "C177_tiling"
   ],
   "note": "The order of the crossings is that of C148."
  },
  {
   "property": "C178",
   "status": "partial",
   "theorems": [
    "C178_paths",
    "C178_longest",
    "C178_layers",
    "C178_hulls",
    "C178_corners",
    "C178_points",
    "C178_nothing",
    "C178_points_refuted",
    "C178_hull_refuted",
    "C178_example"
   ],
   "note": "False of the code for the hull: a loose end at the bottom of the drawing raises (C178_hull_refuted); a drawing of points only raises too (C178_points_refuted). Everything else is proved; the quality of the outer boundary is C79. The offset polygons are C173 and the styles are not modelled."
  },
  {
   "property": "C179",
   "status": "partial",
   "theorems": [
    "C179_coefficients_partial",
    "C179_general_equation_refuted",
    "C179_intersects_refuted"
   ],
   "note": "False of the code: general_equation raises its result (TypeError) and intersects calls a method that does not exist (AttributeError), for all lines. Proved for the coefficients it computes."
  }
 ]
}