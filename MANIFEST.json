{
 "claims": [
  {
   "property": "C01",
   "status": "proved",
   "theorems": [
    "C01_timestamp_programs_exact",
    "C01_timediff_programs_exact",
    "C01_timestamp_programs_defined",
    "C01_timediff_programs_defined"
   ],
   "note": "Integer refinement for every program over the time API; definedness for values within 2^61 seconds."
  },
  {
   "property": "C02",
   "status": "proved",
   "theorems": [
    "C02_timestamp_order_is_chronological",
    "C02_timediff_order_is_chronological",
    "C02_difference_then_add_recovers",
    "C02_add_then_subtract_recovers",
    "C02_addition_is_monotone",
    "C02_timestamp_validity",
    "C02_timediff_validity"
   ],
   "note": "Order, round trips, monotonicity and validity."
  },
  {
   "property": "C03",
   "status": "partial",
   "theorems": [
    "C03_msec_roundtrip_refuted",
    "C03_msec_roundtrip_partial"
   ],
   "note": "The property is false of the code (TimeDiff(1500).milliseconds() is 1000). The partial theorem characterises exactly the inputs that round trip."
  },
  {
   "property": "C04",
   "status": "proved",
   "theorems": [
    "C04_unsigned_decimal",
    "C04_signed_decimal",
    "C04_unsigned_injective",
    "C04_signed_injective"
   ],
   "note": "Canonical decimal numerals, injective, buffer accesses in bounds, for all 64-bit values."
  },
  {
   "property": "C05",
   "status": "proved",
   "theorems": [
    "C05_index_safe",
    "C05_bounded_safe",
    "C05_empty_seed_array_undefined"
   ],
   "note": "All call histories; the one undefined case (empty seed array) is shown separately."
  },
  {
   "property": "C06",
   "status": "proved",
   "theorems": [
    "C06_in_range",
    "C06_first_accepted_word",
    "C06_returns",
    "C06_mask",
    "C06_unbiased",
    "C06_accepts_more_than_half",
    "C06_every_bit_clears",
    "C06_always_returns"
   ],
   "note": "Range, first accepted word, uniform counts, acceptance above one half; the loop returns within 19999 words for every n and every state, the all-zero one included (C06_always_returns), because no output bit is 1 that long (C06_every_bit_clears). Closed under the global context."
  },
  {
   "property": "C07",
   "status": "proved",
   "theorems": [
    "C07_load_save",
    "C07_text_identifies_state"
   ],
   "note": "Character level text; assumes iostreams print canonical decimal numerals."
  },
  {
   "property": "C08",
   "status": "proved",
   "theorems": [
    "C08_recurrence_after_seeding",
    "C08_recurrence_from_any_state",
    "C08_sequence_unique"
   ],
   "note": "Refinement of the in-place block generator to the infinite recurrence, from seeding and from any loaded state."
  },
  {
   "property": "C09",
   "status": "proved",
   "theorems": [
    "C09_seeding_forgets_history",
    "C09_seed_recurrence",
    "C09_array_seed_nonzero",
    "C09_seeds_differ"
   ],
   "note": "Seeding forgets any history; seed recurrence; array seeding sets the top word to 2^31."
  },
  {
   "property": "C10",
   "status": "proved",
   "theorems": [
    "C10_shuffle_terminates",
    "C10_shuffle_permutes",
    "C10_shuffle_bijection",
    "C10_shuffle_with_generator",
    "C10_shuffle_defined"
   ],
   "note": "Permutation for every choice sequence, unique choice sequence for every arrangement, and the loop driven by the generator (vectors up to 2^32 elements), which always ends (C10_shuffle_terminates)."
  },
  {
   "property": "C11",
   "status": "proved",
   "theorems": [
    "C11_equal_reflexive",
    "C11_equal_symmetric",
    "C11_equal_monotone",
    "C11_nan_never_equal",
    "C11_equal_reals"
   ],
   "note": "Reflexivity, symmetry and monotonicity at IEEE binary64 (all values including NaN, infinities, subnormals), with frexp of non-finite arguments an arbitrary fixed value; also at exact reals. Equal(inf,inf) is false, as C11_example records."
  },
  {
   "property": "C12",
   "status": "proved",
   "theorems": [
    "C12_equal_implies_close",
    "C12_close_implies_equal",
    "C12_tolerance_is_power_of_two",
    "C12_zero_absolute"
   ],
   "note": "Exact reals; also the exact tolerance as a power of two, and the absolute tolerance when one operand is zero."
  },
  {
   "property": "C13",
   "status": "proved",
   "theorems": [
    "C13_max",
    "C13_min",
    "C13_clamp"
   ],
   "note": "IEEE binary64, all values except NaN."
  },
  {
   "property": "C14",
   "status": "partial",
   "theorems": [
    "C14_set_corners_refuted",
    "C14_default_timediff_arithmetic_refuted",
    "C14_validity_partial",
    "C14_equality",
    "C14_barycenter",
    "C14_matrix_of_quaternion_refuted",
    "C14_mirror_matrix_refuted",
    "C14_rotate_by_invalid_refuted",
    "C14_time_partial",
    "C14_time_equality_refuted"
   ],
   "note": "Proved in any arithmetic (NaN included) for every expression over vector, point, matrix and quaternion operations, for equality, and for time arithmetic that is defined. Refuted: RotMatrix(q), mirror matrices from invalid vectors, v.rotate(q) after a failed q.rotation(), equality of times, arithmetic on a default constructed TimeDiff (undefined). Also refuted: AxisBox::setCorners marks the box valid whatever the validity of the points (C14_set_corners_refuted)."
  },
  {
   "property": "C15",
   "status": "proved",
   "theorems": [
    "C15_vector_space",
    "C15_affine_space",
    "C15_coordinates"
   ],
   "note": "Exact reals, any dimension; C15_coordinates ties the operations to coordinates."
  },
  {
   "property": "C16",
   "status": "proved",
   "theorems": [
    "C16_dot_symmetric",
    "C16_dot_exact_or_zero",
    "C16_dot_error",
    "C16_dot_without_clamp",
    "C16_cauchy_schwarz"
   ],
   "note": "Exact reals with an arbitrary epsilon, any dimension."
  },
  {
   "property": "C17",
   "status": "partial",
   "theorems": [
    "C17_dot_self_refuted",
    "C17_dot_self_partial",
    "C17_dot_self_refuted_double"
   ],
   "note": "False in the code: Dot clamps small sums to 0, so Dot(v,v)=0 for short nonzero v (refuted over the reals for every epsilon > 0 and every dimension, and in binary64). Proved whenever some coordinate is at least 2*epsilon."
  },
  {
   "property": "C18",
   "status": "proved",
   "theorems": [
    "C18_cross_antisymmetric",
    "C18_cross_error",
    "C18_cross_bilinear",
    "C18_cross_orthogonal",
    "C18_lagrange"
   ],
   "note": "Exact reals; antisymmetry and error bound at any epsilon, the algebra at epsilon 0."
  },
  {
   "property": "C19",
   "status": "partial",
   "theorems": [
    "C19_cross2_refuted",
    "C19_cross2_partial",
    "C19_cross2_refuted_double"
   ],
   "note": "False in the code: Cross(Vector<2>,Vector<2>) compares without fabs and returns 0 whenever the exact value is negative (refuted over the reals and in binary64). Proved: the result is max(0, exact) up to the clamp."
  },
  {
   "property": "C20",
   "status": "partial",
   "theorems": [
    "C20_sloppy_mag_1_2",
    "C20_sloppy_mag3_refuted",
    "C20_sloppy_mag3_partial",
    "C20_sloppy_norm2",
    "C20_sloppy_norm3_partial",
    "C20_sloppy_norm_defined"
   ],
   "note": "Dimensions 1 and 2 proved with the code's constants. In 3D the constant 1.1459347f is below the true maximum (refuted at (0.3732,0.3732,1)); the bracket is proved with 1.14593473."
  },
  {
   "property": "C21",
   "status": "proved",
   "theorems": [
    "C21_normalize",
    "C21_mirror_axis",
    "C21_mirror_all",
    "C21_mirror_vector"
   ],
   "note": "mirror(v) contains Dot; its laws are stated with the clamp disabled (epsilon 0)."
  },
  {
   "property": "C22",
   "status": "partial",
   "theorems": [
    "C22_polar_refuted",
    "C22_polar3_refuted",
    "C22_spherical_refuted",
    "C22_radius_partial",
    "C22_angle_partial"
   ],
   "note": "False in the code: the arguments of atan2 are swapped, so converting to polar coordinates and back exchanges x and y (for every nonzero vector), and the spherical round trip is wrong too. Proved: what the round trips return, the radius round trips, the angle is complemented."
  },
  {
   "property": "C23",
   "status": "partial",
   "theorems": [
    "C23_orthogonal_partial",
    "C23_orthogonal_refuted",
    "C23_antiparallel_partial"
   ],
   "note": "Orthogonality proved for every expression tree in every dimension, provided Dot was exact where two vectors are given and no rotation between antiparallel 2D vectors was built. For the latter it is refuted: the 2D branch of rotation(from,to) gives M*M^T = (1+k^2) I."
  },
  {
   "property": "C24",
   "status": "partial",
   "theorems": [
    "C24_from_quaternion_refuted",
    "C24_parity_partial"
   ],
   "note": "Proved for all 2D and 3D matrix expressions; refuted for fromQuaternion with not_flip == false (parity flag always says +1) ."
  },
  {
   "property": "C25",
   "status": "proved",
   "theorems": [
    "C25_associative",
    "C25_identity",
    "C25_inverse",
    "C25_mixed_products",
    "C25_inverse_of_product",
    "C25_action",
    "C25_undo",
    "C25_isometry",
    "C25_product_defined_2d"
   ],
   "note": "Group laws up to age; hypotheses 'orthogonal if valid' hold by C23."
  },
  {
   "property": "C26",
   "status": "proved",
   "theorems": [
    "C26_quaternion_to_matrix_age",
    "C26_quaternion_age",
    "C26_quaternion_quotient_age",
    "C26_quaternion_normalize_unit",
    "C26_age_bound",
    "C26_normalize_keeps_orthogonal",
    "C26_normalize_defined_2d",
    "C26_normalize_defined_3d"
   ],
   "note": "Matrix and quaternion products; any arithmetic for the counter, exact arithmetic for normalize."
  },
  {
   "property": "C27",
   "status": "proved",
   "theorems": [
    "C27_quaternion_norm",
    "C27_matrix_defect"
   ],
   "note": "Matrix and quaternion parts."
  },
  {
   "property": "C28",
   "status": "proved",
   "theorems": [
    "C28_inverse_correct",
    "C28_failure_means_tiny_pivots",
    "C28_orthogonal_succeeds_2d"
   ],
   "note": ""
  },
  {
   "property": "C29",
   "status": "partial",
   "theorems": [
    "C29_parity",
    "C29_set_vals",
    "C29_terminates",
    "C29_exact_input_kept",
    "C29_parity_2d_partial",
    "C29_parity_double_refuted",
    "C29_terminates_double_refuted"
   ],
   "note": "All clauses in exact arithmetic; the parity flag for dimensions 2 and 3 and epsilon at most 1/100, although the product of the pivots the code computes is not always the determinant. Refuted in doubles: a proper rotation with a tiny corner element is stored with the parity flag set, and the averaging loop never ends on a plane rotation by nearly a quarter turn given to six digits."
  },
  {
   "property": "C30",
   "status": "partial",
   "theorems": [
    "C30_plane_rotation",
    "C30_vector_plane",
    "C30_from_to_partial",
    "C30_antiparallel_throws",
    "C30_antiparallel_2d_refuted",
    "C30_mirror",
    "C30_mirror_axis",
    "C30_mirror_all",
    "C30_axis_rotation",
    "C30_axis_length_rotation"
   ],
   "note": "All constructors incl. rotation about an axis (with exact cross products). rotation(from,to) is refuted for antiparallel vectors in 2D, which do not throw."
  },
  {
   "property": "C31",
   "status": "partial",
   "theorems": [
    "C31_unit_partial",
    "C31_product_near_unit",
    "C31_product_value",
    "C31_quotient",
    "C31_inverse",
    "C31_inverse_of_product",
    "C31_identity",
    "C31_associative",
    "C31_group_exact",
    "C31_product_double",
    "C31_normalize_double",
    "C31_group_tolerance"
   ],
   "note": "Unit norm for every API expression when Dot and Cross do not round to zero (no condition at tolerance 0); products with rounding are within 8 eps + 16 eps^2 of unit (repeated products: C65). Group laws unconditional at tolerance 0; with a positive tolerance and no condition, products, quotients, inverses and associativity hold to within 3 to 33 eps per component (C31_group_tolerance); p/q == p*q.inverse() unconditional. In doubles: every component of a product of two fresh quaternions and of a renormalised one is finite and within 150 and 15 half units in the last place of the exact one (C31_product_double, C31_normalize_double)."
  },
  {
   "property": "C32",
   "status": "proved",
   "theorems": [
    "C32_composition",
    "C32_sandwich",
    "C32_isometry",
    "C32_opposite",
    "C32_undo",
    "C32_axis_angle",
    "C32_axis_length",
    "C32_axis_index",
    "C32_axis_index_bad",
    "C32_vector_axis_angle",
    "C32_exact",
    "C32_tolerance"
   ],
   "note": "Exact when Dot and Cross do not round to zero and at tolerance 0; with a positive tolerance and no condition within 14 to 150 eps (C32_tolerance)."
  },
  {
   "property": "C33",
   "status": "partial",
   "theorems": [
    "C33_matrix_of_quaternion",
    "C33_rotate_is_inverse",
    "C33_quaternion_round_trip_partial",
    "C33_matrix_round_trip_partial",
    "C33_matrix_round_trip_twisted_partial",
    "C33_matrix_round_trip_refuted",
    "C33_mirror_parity_refuted",
    "C33_conversion_defined"
   ],
   "note": "Matrix of a quaternion proved; conversions back proved when the trace is positive; refuted when it is not (half turn) and for the parity of mirrors; what happens instead is characterised."
  },
  {
   "property": "C34",
   "status": "partial",
   "theorems": [
    "C34_matrix_by_quaternion",
    "C34_quaternion_by_matrix_partial",
    "C34_quaternion_by_matrix_refuted"
   ],
   "note": "First half proved; second half refuted (the matrix acts inverted) with the law that holds instead."
  },
  {
   "property": "C35",
   "status": "partial",
   "theorems": [
    "C35_aligns",
    "C35_outcomes",
    "C35_fallback",
    "C35_outcomes_tolerance",
    "C35_tolerance_partial",
    "C35_unit_double_refuted"
   ],
   "note": "Outcomes (valid, invalid, throws) for every pair of vectors without conditions (C35_outcomes_tolerance). Unit and aligned when Dot and Cross do not round to zero; without conditions, within 9 d / sqrt k of unit length and (64 d / sqrt k + 17 eps) of the direction, d = 2 eps / max length, k = 1 + cos angle (C35_tolerance_partial, for 200 d <= sqrt k). Refuted beyond that: in doubles two vectors of length 8e-8 in nearly opposite directions give a valid quaternion of length 6e-8 (C35_unit_double_refuted)."
  },
  {
   "property": "C36",
   "status": "partial",
   "theorems": [
    "C36_maps",
    "C36_segment",
    "C36_ball",
    "C36_corners",
    "C36_polygon",
    "C36_box",
    "C36_rotbox_parent",
    "C36_rotbox_local_refuted",
    "C36_quaternion",
    "C36_rotbox_quaternion",
    "C36_polygon_quaternion_refuted",
    "C36_frames",
    "C36_point_matrix_double",
    "C36_round_trip_double",
    "C36_point_quaternion_double",
    "C36_point_matrix",
    "C36_point_quaternion",
    "C36_point_quaternion_tolerance"
   ],
   "note": "Proved for points, segments, balls, corner lists (Polygon<2>), Polygon<dim> with a matrix, axis boxes, and for box frames; quaternions in 3D for points, segments, balls and RotBox (exact when Dot and Cross do not round; always at tolerance 0). Refuted for two functions: RotBox::toLocalCoords with a matrix multiplies the orientation by the matrix on the wrong side and not by its inverse, so toParent then toLocal is not the identity (C36_rotbox_local_refuted); Polygon<3>::toParentCoords with a quaternion turns the first axis twice and the second not at all (C36_polygon_quaternion_refuted, on a triangle built with addCorner). RotBox::toParentCoords is right (C36_rotbox_parent). In doubles: one conversion or turn about a point with a matrix within e of a rotation (C36_point_matrix_double), there and back (C36_round_trip_double), and both with a quaternion (C36_point_quaternion_double)."
  },
  {
   "property": "C37",
   "status": "proved",
   "theorems": [
    "C37_barycenter_mean",
    "C37_weighted_mean",
    "C37_weighted_invalid",
    "C37_midpoint",
    "C37_in_box",
    "C37_affine",
    "C37_translation_is_affine"
   ],
   "note": "Exact reals, any dimension, any number of points; rotations are covered as affine maps."
  },
  {
   "property": "C38",
   "status": "partial",
   "theorems": [
    "C38_squared_distance",
    "C38_error",
    "C38_error_origin",
    "C38_exact_when_far",
    "C38_metric_without_clamp",
    "C38_zero_distance_refuted",
    "C38_zero_distance_partial"
   ],
   "note": "The last clause is false in the code: Distance(1, 1+2^-25) is 0 although the points are not equal (binary64 witness). Proved: everything else, and that zero distance implies a squared distance at most 2*epsilon*min."
  },
  {
   "property": "C39",
   "status": "proved",
   "theorems": [
    "C39_point_exact",
    "C39_point_tolerance",
    "C39_point_double",
    "C39_boxes_exact",
    "C39_boxes_tolerance",
    "C39_flat_boxes_refuted",
    "C39_contains_exact",
    "C39_contains_tolerance",
    "C39_symmetric",
    "C39_boxes_double",
    "C39_contains_double"
   ],
   "note": "Exact versions at tolerance 0, tolerance versions for every eps, and double versions of the point, box and containment tests (exact with proper; within one rounding of the tolerance without). For boxes flat along an axis the proper box/box test is true although the interiors do not meet (C39_flat_boxes_refuted); the claim leaves such boxes out."
  },
  {
   "property": "C40",
   "status": "proved",
   "theorems": [
    "C40_intersection",
    "C40_union",
    "C40_bounding_points",
    "C40_bounding_boxes",
    "C40_empty",
    "C40_intersection_double",
    "C40_union_double",
    "C40_bounding_points_double",
    "C40_bounding_boxes_double",
    "C40_polygon_plane",
    "C40_polygon_space",
    "C40_ball_bounding_box",
    "C40_segment_bounding_box"
   ],
   "note": "Over the reals and, for boxes and points, over all finite doubles (no rounding error); every dimension, every list of points or boxes; for polygons in the plane and in space the smallest box around the region."
  },
  {
   "property": "C41",
   "status": "proved",
   "theorems": [
    "C41_set_corners",
    "C41_set_corners_ordered",
    "C41_corners",
    "C41_moves",
    "C41_equality",
    "C41_set_corners_double",
    "C41_corners_double"
   ],
   "note": "Every dimension; set_corners without ordered flag sorts coordinatewise, over the reals and over all finite doubles."
  },
  {
   "property": "C42",
   "status": "partial",
   "theorems": [
    "C42_point_exact",
    "C42_point_tolerance",
    "C42_point_proper_refuted",
    "C42_balls_exact",
    "C42_balls_tolerance",
    "C42_symmetric",
    "C42_contains_ball_exact",
    "C42_contains_ball_tolerance",
    "C42_point_contains_ball",
    "C42_box",
    "C42_ball_contains_box_exact",
    "C42_ball_contains_box_tolerance",
    "C42_ball_contains_box_proper_refuted",
    "C42_box_contains_ball",
    "C42_box_contains_ball_exact",
    "C42_point_proper_double_refuted",
    "C42_point_double",
    "C42_point_double_sound",
    "C42_balls_double_refuted",
    "C42_box_double_refuted"
   ],
   "note": "Every test is exact at tolerance 0 and complete and sound up to an explicit margin for every epsilon; Intersect(ball,box) and Contains(box,ball) need no margin; symmetry also for all doubles; in doubles, up to dimension 50, no point of the ball is refused and every accepted point is within 2*epsilon of it. Missing because false: with epsilon > 0 the proper Intersect(ball,point) and proper Contains(ball,box) accept boundary and even outside points, since the squared radius is enlarged also when proper (C42_point_proper_refuted, C42_point_proper_double_refuted, C42_ball_contains_box_proper_refuted); in doubles Intersect(ball,ball) and Intersect(ball,box) can refuse objects that touch (C42_balls_double_refuted, C42_box_double_refuted)."
  },
  {
   "property": "C43",
   "status": "partial",
   "theorems": [
    "C43_points_exact",
    "C43_exact_le_sloppy",
    "C43_one_point_refuted",
    "C43_sloppy_contains_exact_refuted",
    "C43_polygon_plane_sloppy",
    "C43_polygon_plane_exact",
    "C43_polygon_space_sloppy",
    "C43_polygon_space_exact",
    "C43_polygon_empty",
    "C43_points_sloppy",
    "C43_point",
    "C43_box",
    "C43_box_tolerance",
    "C43_box_sloppy",
    "C43_segment",
    "C43_segment_sloppy",
    "C43_rotbox",
    "C43_rotbox_sloppy_refuted",
    "C43_rotbox_sloppy_partial",
    "C43_segment_double",
    "C43_box_double",
    "C43_segment_double_refuted",
    "C43_box_double_refuted"
   ],
   "note": "All bounding spheres contain what they bound, polygons in the plane and in space included, except RotBox::boundingSphereSloppy (refuted). BoundingSphere of a list with two different points, and of a polygon with two different corners, is the smallest ball, never larger than the sloppy one. Refuted: it fails its own assertion for one point or equal points; the smallest ball need not lie inside the sloppy ball. In doubles, for segments and boxes in up to three dimensions: proved when the shape is not far from the origin for its size (C43_segment_double, C43_box_double), refuted otherwise (C43_segment_double_refuted, C43_box_double_refuted)."
  },
  {
   "property": "C44",
   "status": "partial",
   "theorems": [
    "C44_point",
    "C44_point_contains_segment",
    "C44_box_exact",
    "C44_box_tolerance",
    "C44_box_contains_segment",
    "C44_segment_contains_box",
    "C44_ball",
    "C44_ball_contains_segment",
    "C44_segment_contains_ball_partial",
    "C44_segment_contains_ball_refuted",
    "C44_segment_contains_segment",
    "C44_segments_partial",
    "C44_segments_refuted",
    "C44_segments_false_positive_refuted",
    "C44_ball_double",
    "C44_ball_double_refuted",
    "C44_ball_tolerance",
    "C44_box_double",
    "C44_box_never_missed_double",
    "C44_box_whole_double",
    "C44_box_double_refuted",
    "C44_box_contains_segment_double",
    "C44_ball_contains_segment_double",
    "C44_point_double",
    "C44_point_tolerance",
    "C44_point_tolerance_proper",
    "C44_point_double_refuted"
   ],
   "note": "With exact comparisons in every dimension: segment/point, segment/box, segment/ball (closed and proper), and inclusion in both directions for boxes, balls (segment contains ball: from dimension 2) and segments, each as an equivalence with the point sets. Box tests also with every epsilon. Two segments: exact when parallel; refuted otherwise (every crossing in inner points is reported as no intersection, some disjoint pairs are reported, and the answer depends on the argument order). Contains(segment, ball) is refuted on the line. In double precision (any dimension, coordinates up to 2^1000): the segment/box test accepts every segment with a point two ulps of the reach inside the box and accepts only segments with a point that near it; it never misses a common point when the coordinate differences are doubles, is exact for whole numbers up to 2^24, and does miss a touching corner in general (refuted). Containment of a segment in a box or ball in doubles. Segment/ball with every epsilon (C44_ball_tolerance) and in doubles up to multiples of the tolerance (C44_ball_double), with a touching pair that is refused (refuted). Segment/point with every epsilon: every point of the segment is accepted, an accepted point is near the segment or the segment is short (C44_point_tolerance, and with proper in every case near); the short case is real: a point half a segment length away is accepted (C44_point_double_refuted). Segment/point in doubles (dimension up to 6, distances to the ends zero or between 2^-200 and 2^200): a point exactly on the segment is always accepted, an accepted one is within the stated margin or the segment is short (C44_point_double)."
  },
  {
   "property": "C45",
   "status": "proved",
   "theorems": [
    "C45_point_double",
    "C45_point_tolerance",
    "C45_point_exact",
    "C45_point_proper",
    "C45_own_frame",
    "C45_corners",
    "C45_corners_intersect",
    "C45_corner_range",
    "C45_bounding_box",
    "C45_rotate_point",
    "C45_rotate_set",
    "C45_rotate_corner",
    "C45_rotate_center"
   ],
   "note": "Intersect(rotbox,point), corners, boundingBox and rotation about a point, a corner and the centre, for every dimension, size signs and epsilon. Rotation theorems are stated for calls that return (matrix products may renormalise). In doubles (C45_point_double): a point inside by the error of its coordinates along the edges is met, and a point that is met is within the tolerance and that error."
  },
  {
   "property": "C46",
   "status": "partial",
   "theorems": [
    "C46_box_2d_exact",
    "C46_box_2d_tolerance",
    "C46_box_2d_proper",
    "C46_rotbox_2d_exact",
    "C46_rotbox_2d_tolerance",
    "C46_rotbox_2d_proper",
    "C46_box_3d_exact",
    "C46_rotbox_3d_exact",
    "C46_box_3d_sound_partial",
    "C46_box_3d_complete_partial",
    "C46_box_3d_proper_partial",
    "C46_box_3d_refuted"
   ],
   "note": "2D: exact at eps 0, two-sided tolerance for every eps, and exact for proper intersection, both against axis boxes and rotated boxes. 3D: the fifteen-axis test is proved exact at eps 0 (Helly's theorem and the mixed-axis argument are proved from scratch). For eps > 0 in 3D the unconditional claim is refuted: Dot's relative clamp makes the test report a corner of the box as separate from it; it holds when the dots are not clamped, with a stated tolerance eps/k for edges at sine at least k."
  },
  {
   "property": "C47",
   "status": "partial",
   "theorems": [
    "C47_point",
    "C47_box",
    "C47_ball",
    "C47_segment",
    "C47_rotbox",
    "C47_rotbox_2d",
    "C47_box_double",
    "C47_ball_double",
    "C47_symmetric",
    "C47_symmetric_double",
    "C47_rotbox_symmetric_partial",
    "C47_segment_symmetric_partial",
    "C47_segment_symmetric_refuted",
    "C47_polygon_self_refuted",
    "C47_polygon_symmetric_refuted"
   ],
   "note": "Self-containment is proved for points, boxes, balls and segments with any tolerance and any dimension, for rotated boxes of non-zero extent (always defined in the plane), and for double boxes and balls. Symmetry of Intersect is proved for points, boxes and balls (reals and doubles), rotated boxes exactly, parallel segments. C47_segment_symmetric_refuted: for two crossing-direction segments the order of the arguments changes the answer. Polygons in the plane: refuted, no polygon whose first and last corners differ is said to contain itself (exact arithmetic; also a square of doubles), and Intersect of two triangles depends on the order (C47_polygon_self_refuted, C47_polygon_symmetric_refuted)."
  },
  {
   "property": "C48",
   "status": "partial",
   "theorems": [
    "C48_rigid",
    "C48_segment_shift",
    "C48_segment_rotate",
    "C48_segment_quaternion",
    "C48_ball",
    "C48_ball_quaternion",
    "C48_box",
    "C48_rotbox_shift",
    "C48_rotbox_rotate",
    "C48_rotbox_quaternion",
    "C48_list_shift",
    "C48_list_rotate",
    "C48_polygon_center",
    "C48_polygon_shift",
    "C48_polygon_rotate",
    "C48_polygon_quaternion_point",
    "C48_polygon_quaternion_partial",
    "C48_polygon_quaternion_refuted"
   ],
   "note": "Proved for Segment, Ball, AxisBox, RotBox, Line, Polygon<2>, and Polygon<dim> with vectors and matrices: every corner and the point set move by the same rigid motion, the named corner, centre or point is held, and rigid motions keep distances (C48_rigid). Quaternion versions hold when Dot and Cross do not round (always at tolerance 0). Refuted for Polygon<3>::rotateCorner(Quaternion): polygon_funcs.h subtracts the rotated shift from itself, so the polygon turns about the origin of its plane and the named corner moves (C48_polygon_quaternion_refuted, on a triangle built with addCorner); C48_polygon_quaternion_partial says what it does instead."
  },
  {
   "property": "C49",
   "status": "partial",
   "theorems": [
    "C49_list",
    "C49_list_history",
    "C49_polygon_add_partial",
    "C49_polygon_add_exact",
    "C49_polygon_remove_partial",
    "C49_polygon_move_partial",
    "C49_polygon_history",
    "C49_polygon_remove_aborts_refuted",
    "C49_polygon_remove_moves_refuted"
   ],
   "note": "The lists of corners of Line and Polygon<2> are proved to be exactly a sequence with insert, delete and replace, for every history of calls, with an index out of range undefined (C49_list, C49_list_history). For Polygon<dim>: addCorner keeps every corner and adds the point or refuses, at tolerance 0 always and else when no inner product is rounded; removeCorner and moveCorner, where they return, keep the other corners up to 2 epsilon if none is closer than the tolerance to the first one; every corner stays readable in every history. False in general: removeCorner of a corner just added aborts (signed comparison in an assertion), and removeCorner can move a corner that stays by half a unit (both refuted for every tolerance up to 1/8)."
  },
  {
   "property": "C50",
   "status": "proved",
   "theorems": [
    "C50_defined",
    "C50_start",
    "C50_orientation",
    "C50_even_odd",
    "C50_even_odd_exact",
    "C50_rule",
    "C50_rectangle"
   ],
   "note": "The answer is that of the even-odd rule applied with any ray through no corner (C50_even_odd for points clear of the boundary by the tolerance, C50_even_odd_exact for every point off the boundary in exact arithmetic; C50_rule: such rays exist and all agree). Starting corner irrelevant in any arithmetic including doubles, orientation irrelevant over the reals, defined for every non-empty list, undefined on the empty one. For a rectangle it is membership (C50_rectangle)."
  },
  {
   "property": "C51",
   "status": "partial",
   "theorems": [
    "C51_matrix_double_refuted",
    "C51_coords",
    "C51_coords_accepts",
    "C51_point",
    "C51_box",
    "C51_segment",
    "C51_ball",
    "C51_polygon_plane",
    "C51_malformed_refuted",
    "C51_truncated_refuted",
    "C51_matrix",
    "C51_rotbox",
    "C51_quaternion",
    "C51_polygon_space_partial",
    "C51_polygon_space_text_partial",
    "C51_polygon_space_refuted",
    "C51_polygon_empty_refuted",
    "C51_line_refuted"
   ],
   "note": "Proved for any number type whose printing is exact, any dimension, any following text: coordinate lists (with the exact set of accepted texts), Vector, Point, AxisBox, Ball, Segment, Polygon<2>, RotMatrix, RotBox, Quaternion (divided by its length). Refuted: Polygon<dim> with a number of corners other than dim is not read back (wrong separators), an empty Polygon<dim> does not clear the object read into, Line has the same separators (and no operator>>); malformed text can loop for ever or test an uninitialised char; with doubles and the six digits of a stream by default, reading a rotation of the plane back never ends and a rotation in space is refused. Positive part for Polygon<dim>: a well-formed list of corners is read back within the stream tolerance. Printing and reading of binary64 numbers by decimal text is C69."
  },
  {
   "property": "C52",
   "status": "partial",
   "theorems": [
    "C52_point",
    "C52_point_accepts",
    "C52_safe",
    "C52_ball",
    "C52_ball_malformed_refuted",
    "C52_polygon_accepts",
    "C52_line_accepts",
    "C52_polygon_partial",
    "C52_line_partial",
    "C52_polygon_refuted",
    "C52_line_refuted",
    "C52_rotbox_partial",
    "C52_rotbox_refuted",
    "C52_box_accepts",
    "C52_box",
    "C52_quaternion",
    "C52_finite"
   ],
   "note": "Round trips proved for every scalar type for points, vectors, balls; over the reals for boxes with ordered corners and unit quaternions; exact characterisation of what is accepted for points, boxes, polygons and lines; no out of bounds access for any message (C52_safe). Full statement refuted: Polygon<2>::fromAtlas and Line::fromAtlas append to the old corners and refuse fewer than 3 (1) corners (C52_polygon_refuted, C52_line_refuted; equal when the target is empty and there are enough corners: _partial); RotBox drops the orientation (C52_rotbox_refuted, C52_rotbox_partial); Ball accepts malformed messages and yields a valid ball of radius 0 (C52_ball_malformed_refuted)."
  },
  {
   "property": "C53",
   "status": "partial",
   "theorems": [
    "C53_factorial_small",
    "C53_factorial_double",
    "C53_table_partial",
    "C53_table_refuted"
   ],
   "note": "Factorials below 10 exact, over the reals and in doubles. Table: nine of eleven entries are the Bernoulli terms; entries 3 (-1/1620 for -1/1680) and 9 (-174661/125400 for -174611/125400) are refuted."
  },
  {
   "property": "C54",
   "status": "partial",
   "theorems": [
    "C54_move_to_front_ends",
    "C54_pivot_safe",
    "C54_search_partial",
    "C54_search_without_cutoff",
    "C54_empty_refuted",
    "C54_rounding_refuted"
   ],
   "note": "Move to front ends and keeps the points for any arithmetic; in exact arithmetic both searches end with the smallest enclosing ball, the support points on its sphere and the centre in their hull, for every list when the cut-off literal is 0 and under the spread hypothesis with the literal 1e-32. Missing: with rounding a point can be left outside (refuted with a witness), and the empty list is undefined behaviour (refuted)."
  },
  {
   "property": "C55",
   "status": "proved",
   "theorems": [
    "C55_quaternion_equality",
    "C55_quaternion_symmetric",
    "C55_quaternion_reflexive",
    "C55_equality_double",
    "C55_equality_bound",
    "C55_equality_monotone",
    "C55_equality_exact"
   ],
   "note": "Vectors, points and quaternions."
  },
  {
   "property": "C56",
   "status": "partial",
   "theorems": [
    "C56_product_self_refuted",
    "C56_product_self_partial",
    "C56_quotient_self_partial"
   ],
   "note": "Refuted; exact values of q *= q and q /= q given."
  },
  {
   "property": "C57",
   "status": "proved",
   "theorems": [
    "C57_ball",
    "C57_contains_ball",
    "C57_ball_contains",
    "C57_ball_contains_exact",
    "C57_segment",
    "C57_contains_segment",
    "C57_segment_contains",
    "C57_box_contains",
    "C57_contains_box",
    "C57_contains_rotbox"
   ],
   "note": "Every dimension. Non-proper containment and segment tests are exact up to epsilon along each edge; Contains(ball,rotbox) uses the relative tolerance r^2(1+epsilon) also when proper is set (see C42), so its exact version is at epsilon 0; Contains(segment,rotbox) is at epsilon 0."
  },
  {
   "property": "C58",
   "status": "partial",
   "theorems": [
    "C58_point",
    "C58_point_boundary_partial",
    "C58_point_boundary_refuted",
    "C58_in_point",
    "C58_ball",
    "C58_contains_ball",
    "C58_in_ball",
    "C58_in_box",
    "C58_box_partial",
    "C58_box_inside_refuted",
    "C58_box_touching_refuted",
    "C58_box_proper_refuted",
    "C58_contains_box_partial",
    "C58_contains_box_refuted",
    "C58_contains_box_proper_refuted",
    "C58_in_rotbox",
    "C58_rotbox_partial",
    "C58_contains_rotbox_partial",
    "C58_in_segment",
    "C58_segment_partial",
    "C58_segment_refuted",
    "C58_segment_false_positive_refuted",
    "C58_contains_segment_refuted",
    "C58_contains_segment_proper_partial",
    "C58_contains_segment_crash_refuted",
    "C58_polygons_partial",
    "C58_polygons_refuted",
    "C58_contains_polygon_refuted",
    "C58_space_built",
    "C58_space_ball",
    "C58_space_in_ball",
    "C58_space_in_box",
    "C58_space_in_rotbox",
    "C58_space_box_partial",
    "C58_space_rotbox_partial",
    "C58_space_box_touching_partial",
    "C58_space_box_refuted",
    "C58_space_box_crash_refuted",
    "C58_space_box_proper_refuted",
    "C58_space_segment_partial",
    "C58_space_origin_refuted",
    "C58_space_contained_exact_refuted",
    "C58_space_off_plane_refuted",
    "C58_space_point_contains_refuted",
    "C58_space_flat_box_partial",
    "C58_space_flat_rotbox_partial",
    "C58_space_flat_box_refuted",
    "C58_space_off_plane_partial",
    "C58_space_in_plane_partial",
    "C58_space_in_segment_partial"
   ],
   "note": "Polygon<2> in exact arithmetic, with region and interior defined by the even-odd rule (RegionSpec): points off the boundary, boundary points on non-horizontal sides, Intersect with balls (both values of proper), Contains(polygon, ball), Contains(ball/box/rotated box/segment/point, polygon) are exact. Partial: Intersect with a box or rotated box (sound; complete when some corner is outside the box), Contains(polygon, box/rotated box) (exact for proper, and without proper when no box corner is on the boundary), segments and polygons (first end or first corner inside). Refuted: horizontal boundary sides, polygons inside a box, touching from below, proper box tests, Contains along a diagonal and at a notch, crossing segments and crossing polygons are missed, Contains(polygon, segment) true for a segment that leaves, and reads past the end. Polygon<dim> in space, any dimension: Intersect with balls and Contains(ball/box/rotated box, polygon) exact for every polygon the corner operations build (C58_space_built); in three dimensions segments that do not lie in the plane. Refuted in space: the plane test is relative to the point's distance from the origin (the origin is in no polygon, points 1 above the plane are in one far away), every box cut by the plane is reported apart, every box beyond it recurses for ever. Polygons in space whose corners are on one line, against boxes and rotated boxes: right when they meet and when the line misses the box; when the line meets the box only beyond the polygon the code recurses for ever (C58_space_flat_*). Contains(point, polygon) is false for every polygon with corners. For every tolerance, points and segment ends away from the plane are outside, no ball with a positive radius is contained (C58_space_off_plane_partial); points of the plane are answered by the even-odd rule when the tolerance cuts nothing (C58_space_in_plane_partial); Contains(segment, polygon in space) is never wrongly true, and exact for segments in the plane (C58_space_in_segment_partial). Missing: segments lying in the plane of a polygon in space, positive tolerance for the shape tests."
  },
  {
   "property": "C59",
   "status": "partial",
   "theorems": [
    "C59_gamma_below_partial",
    "C59_log_factorial_double",
    "C59_factorial_double",
    "C59_log_gamma_double_partial",
    "C59_gamma_double_partial",
    "C59_special_double",
    "C59_log_factorial_partial",
    "C59_log_factorial_accuracy_refuted",
    "C59_log_gamma_partial",
    "C59_log_gamma_whole",
    "C59_log_gamma_assertion_refuted",
    "C59_reflection",
    "C59_log_factorial_wrap_refuted"
   ],
   "note": "LogFactorial within u*ln(n!) + (n+1)^-7/30000 of ln(n!) for 10 <= n < 2^32-1; LogGamma for z >= 1/2 against Gauss's limit, with the assertion failing only where |ln Gamma| < 1/100; below 1/2 by reflection, the formula proved for Gauss's limit from Euler's product for the sine. Refuted: error at n = 10 above 100 machine epsilons, assertion failure on an interval of arguments in (2,3), wrap at UINT_MAX. In doubles: LogFactorial for every n from 10 to 2^32-2 to within 32 rounding errors of (n+1)ln(n+1) plus the effect of the wrong coefficient, Factorial up to 170, LogGamma at every double from 10 to 2^32 and Gamma from 10 to 171 where it is at most 2^1020, all given accurate exp and log. LogGamma is exactly 0 at 1 and 2 in doubles; at infinity, where the true value is infinite, LogGamma and Gamma fail the assertion that the series has ended (C59_special_double)."
  },
  {
   "property": "C60",
   "status": "proved",
   "theorems": [
    "C60_gaussian_double",
    "C60_poisson_double",
    "C60_poisson_large_double",
    "C60_assertions_double",
    "C60_gaussian",
    "C60_poisson",
    "C60_poisson_small",
    "C60_poisson_negative"
   ],
   "note": "Real arithmetic: Gaussian equals the density; Poisson exact below the cutoff and within the error of LogFactorial above it; n = UINT_MAX excluded (n+1 wraps, see C59). In doubles, with exp and log accurate to one unit: Gaussian within (4 d^2 + 8) rounding errors, relative, up to d = 24 standard deviations from the mean, and Poisson for n < 10 and means up to 100 within 5 (n |ln mean| + mean + ln n!) + 3; from 10 on, for means in [2^-32, 2^32], with 33 (n+1) ln(n+1) more and the effect of the wrong coefficient. The refused arguments in doubles, NaN and infinities included."
  },
  {
   "property": "C61",
   "status": "partial",
   "theorems": [
    "C61_gaussian_conditional_far_partial",
    "C61_gaussian_conditional_near_refuted",
    "C61_gaussian_conditional_half_refuted",
    "C61_gaussian_conditional_sign_partial",
    "C61_gaussian_conditional_sign_refuted",
    "C61_gaussian_conditional_mean_double_partial",
    "C61_poisson_conditional_0_double",
    "C61_poisson_conditional",
    "C61_poisson_conditional_large",
    "C61_poisson_conditional_0",
    "C61_gaussian_conditional_partial",
    "C61_gaussian_conditional_refuted",
    "C61_poisson_conditional_double",
    "C61_poisson_conditional_accuracy_double",
    "C61_gaussian_conditional_ends_refuted",
    "C61_poisson_conditional_ends_refuted"
   ],
   "note": "PoissonConditional for every mean >= 0 and n < UINT_MAX, both branches, with termination. GaussianConditional is right at the mean and, on either side, from sqrt(3) standard deviations on (continued fraction, to 2u(ln(1/u)+2) of the truth, within ln(1/u)^2+1 rounds). In between it is refuted everywhere: IncompleteGamma's prefactor makes it use 1/2 - 0.824(1/2 - P) for the probability P (less than half the truth at 1.7 standard deviations). A negative stddev gives the other tail. In doubles PoissonConditional by the power series ends, is in (0,1] and has a relative error of at most 11(n+60) half units in the last place; GaussianConditional 2^513 or more standard deviations above the mean never returns (refuted), nor does PoissonConditional for means of 2^1023 and more (refuted). GaussianConditional at the mean also in doubles, for a standard deviation of either sign, to 8 rounding errors (C61_gaussian_conditional_mean_double_partial). PoissonConditional at 0 in doubles is as accurate as the exponential (C61_poisson_conditional_0_double)."
  },
  {
   "property": "C62",
   "status": "partial",
   "theorems": [
    "C62_same_plane_partial",
    "C62_place_refuted",
    "C62_parallel_refuted",
    "C62_right_angle_refuted",
    "C62_right_angle_proper_refuted",
    "C62_right_angle_contains",
    "C62_lines_partial",
    "C62_lines_angle_refuted",
    "C62_lines_crash_refuted",
    "C62_right_angle_crash_refuted",
    "C62_contains_box_refuted",
    "C62_contains_box_exact_refuted",
    "C62_point_refuted",
    "C62_empty",
    "C62_contains_rotbox_refuted"
   ],
   "note": "Exact arithmetic in three dimensions. Right: two polygons in one plane with one origin, the first corner of one inside the other; Contains for planes at right angles; parallel polygons on lines (any dimension, exact both ways). Refuted: for planes that are not at right angles (all parallel ones) the answers do not depend on where the second polygon is, so a triangle above a square is inside it; for planes at right angles crossings are never recorded, so crossing squares are apart, and with proper the answer is never yes; a polygon whose corners are one point is never said to meet or to be inside another, even when the point is inside (any dimension and tolerance); lines at an angle are taken for one line; lines at right angles read flags never written; a corner or side on the common line reads past the end or fails an assertion (doubles); Contains(polygon, box) tests a diamond whose diagonal is a side of the box (doubles), and is never true in exact arithmetic. Missing: oblique planes with p1's frame origin on both (what is computed is a projection), a polygon on a line against one with a plane, positive answers for planes at right angles without proper."
  },
  {
   "property": "C63",
   "status": "partial",
   "theorems": [
    "C63_seed",
    "C63_seed_forgets",
    "C63_made",
    "C63_same_instant_partial",
    "C63_later_refuted"
   ],
   "note": "Every clause but the last is proved (C63_seed, C63_seed_forgets, C63_made). Different streams: proved for calls at the same time and clock with fewer than 2^32 calls between (C63_same_instant_partial); refuted in general: the second generator of a program, made one second later, can be equal to the first (C63_later_refuted, with time and clock values a real program can see)."
  },
  {
   "property": "C64",
   "status": "proved",
   "theorems": [
    "C64_double",
    "C64_double_order",
    "C64_upto",
    "C64_float",
    "C64_float_order"
   ],
   "note": "For every state and word: range, end points, distance from the exact quotient and order, in binary64 (rand, rand(n)) and binary32 (rand<float>); 1.0f comes from 128 words."
  },
  {
   "property": "C65",
   "status": "partial",
   "theorems": [
    "C65_double_refuted",
    "C65_double_long_refuted",
    "C65_exact_refuted",
    "C65_chain_partial",
    "C65_chain_double_partial",
    "C65_make_double",
    "C65_axis_double",
    "C65_rotation_double",
    "C65_turn_double_partial"
   ],
   "note": "Refuted: when the ages add up to the limit only the left operand is renormalised and the age is set back to 1 whatever the right one has gathered, so the error grows sixteenfold every five squarings; the double Quaternion(1,2,0,0) squared eighty times is zero and still valid, Quaternion(3,4,0,0) doubles its length; in exact arithmetic any positive tolerance lets the length go to 0. Proved: with right operands of length 1 and age 1 to 19, any mixture of products, quotients, inversions and normalisations keeps the squared length within 200 epsilon of 1. In doubles: the constructors and rotation(axis, angle) give fresh quaternions accurate to 14, 2 and 18 half units, given an accurate sine and cosine (C65_make_double, C65_axis_double, C65_rotation_double); for any number of moves with fresh right operands the squared length stays within 16000 half units of 1, the rotation is within 700 half units per move of the exact one (C65_chain_double_partial) and a vector turned by the result is within 1400 half units of its length per move, and 33000, of where the exact rotations take it (C65_turn_double_partial)."
  },
  {
   "property": "C66",
   "status": "partial",
   "theorems": [
    "C66_angle_exact",
    "C66_parallel_exact",
    "C66_angle_partial",
    "C66_angle_self_refuted",
    "C66_parallel_partial",
    "C66_parallel_refuted",
    "C66_parallel_double_refuted",
    "C66_perpendicular_partial",
    "C66_perpendicular_zero",
    "C66_perpendicular_double_refuted"
   ],
   "note": "Tolerance 0: Angle, Parallel and same_dir are exact. With a tolerance: error bounds for vectors not too short. Refuted for short vectors: in doubles (2^-13, 0) and (0, 2^-13) are Parallel, and a vector of length 2^-60 is Perpendicular to itself."
  },
  {
   "property": "C67",
   "status": "proved",
   "theorems": [
    "C67_vector",
    "C67_matrix",
    "C67_quaternion",
    "C67_any_axis",
    "C67_plane",
    "C67_mirrors",
    "C67_operators",
    "C67_parallel_exact",
    "C67_zero"
   ],
   "note": "Vectors, matrices and mirrors exactly for every tolerance; quaternions within 14 eps min(1, |v|), Vector::rotate(axis, theta) within 8 eps."
  },
  {
   "property": "C68",
   "status": "proved",
   "theorems": [
    "C68_rotate_quaternion",
    "C68_coordinates",
    "C68_nearest",
    "C68_difference",
    "C68_dot",
    "C68_length",
    "C68_normalize",
    "C68_distance",
    "C68_cross",
    "C68_rotate",
    "C68_symmetric"
   ],
   "note": "For doubles: every bound is proved for all dimensions up to 2^26 and all finite coordinates without overflow; the symmetries for all doubles; rotation by a quaternion for vectors of length up to 2^1000 (C68_rotate_quaternion)."
  },
  {
   "property": "C69",
   "status": "proved",
   "theorems": [
    "C69_print_nearest",
    "C69_scan_nearest",
    "C69_number_exact",
    "C69_number_digits",
    "C69_objects_exact",
    "C69_point_digits",
    "C69_box_digits",
    "C69_segment_digits",
    "C69_ball_digits",
    "C69_polygon_plane_digits",
    "C69_not_finite",
    "C69_default_precision_refuted",
    "C69_sixteen_digits_refuted",
    "C69_matrix_exact",
    "C69_quaternion_exact",
    "C69_print_ties",
    "C69_scan_finite",
    "C69_overflow"
   ],
   "note": "For the model of the standard library's conversion (round to nearest even both ways, C locale). The default precision of 6 and a precision of 16 do not bring every coordinate back (C69_default_precision_refuted, C69_sixteen_digits_refuted; not part of the claim). Halfway cases are written with the even digit (C69_print_ties), whatever is read is finite (C69_scan_finite) and too large decimals are refused (C69_overflow)."
  },
  {
   "property": "C70",
   "status": "partial",
   "theorems": [
    "C70_normalize_refuted",
    "C70_normalize_aborts_refuted",
    "C70_products_refuted",
    "C70_plane_refuted",
    "C70_plane_rotation",
    "C70_mirror",
    "C70_few_products_partial"
   ],
   "note": "Refuted: the elimination in normalize() accepts pivots as small as 1e-154 and does not exchange rows. The product of rotations about x by 1 and about z by pi/2, orthogonal to one half unit, has the element 6e-17 in the corner; normalize() returns a valid matrix whose first row has squared length 1.25 (C70_normalize_refuted), and for the angles 0.3, pi/2, 0.7 it fails its assertion (C70_normalize_aborts_refuted). It happens in plain products too: one turn about x by 1, one about z by pi/2 and eighteen about x by 1 give a valid matrix with a row of squared length 2.4, because the last product is renormalised (C70_products_refuted, for a C library with the nearest doubles as sines and cosines). In the plane the damage is up to 2^-28 (C70_plane_refuted). Proved: the constructors (C70_plane_rotation, C70_mirror), and up to eighteen products and quotients in any dimension up to 2^20 (C70_few_products_partial)."
  },
  {
   "property": "C71",
   "status": "partial",
   "theorems": [
    "C71_rotbox_partial",
    "C71_rotbox_corner_refuted",
    "C71_box",
    "C71_box_centre_refuted",
    "C71_ball",
    "C71_ball_proper_refuted",
    "C71_segment_ends",
    "C71_segment_centre_refuted"
   ],
   "note": "Refuted: a rotated box of 70 by 50 with a corner at (7,7), turned by one radian, does not meet its own corner 2 (C71_rotbox_corner_refuted); a segment far from the origin does not meet its centre (C71_segment_centre_refuted); the centre of the axis box of the one point 2^-1074 is not in it (C71_box_centre_refuted); a ball of radius 2^-600 does not properly meet its centre (C71_ball_proper_refuted). Proved: axis boxes meet their corners and centre, and the centre is in the box unless a coordinate is below 2^-1021 (C71_box); balls meet their centre (C71_ball); segments meet their ends (C71_segment_ends); rotated boxes that are small and near the origin, relative to the absolute tolerance, meet their corners and centre (C71_rotbox_partial)."
  },
  {
   "property": "C72",
   "status": "partial",
   "theorems": [
    "C72_points",
    "C72_shift",
    "C72_move_corner",
    "C72_move_corner_refuted",
    "C72_there_and_back_refuted",
    "C72_history",
    "C72_rigid",
    "C72_bodies"
   ],
   "note": "Proved: the drift of every corner over any history of shifts (C72_points, C72_shift), order of box corners kept, radii, sizes and orientations untouched; moveCornerTo lands within two roundings of p, exactly at p when the coordinates are within a factor of two, and exactly for segments and for the centre of a ball (C72_move_corner; for rotated boxes corner 0). Refuted as exact statements: moveCornerTo of an axis box can miss p completely (C72_move_corner_refuted), and a shift there and back can collapse a box (C72_there_and_back_refuted). Histories of shifts and turns mixed (C72_history): the error of a point grows by at most one step per move; bodies keep the distances of their corners to two steps per move (C72_rigid, C72_bodies)."
  },
  {
   "property": "C73",
   "status": "proved",
   "theorems": [
    "C73_nearest",
    "C73_digits",
    "C73_last_digit",
    "C73_epsilon"
   ],
   "note": "For the model of a compiler that rounds decimal literals to nearest (IEC 60559), for both types (C73_nearest); the literals are within three units of their fiftieth decimal (C73_digits), and the exact differences in that decimal are given (C73_last_digit); epsilon is exact, and these are the constants the rest of the model uses (C73_epsilon)."
  },
  {
   "property": "C74",
   "status": "proved",
   "theorems": [
    "C74_outputs_determine_future",
    "C74_623_not_enough",
    "C74_future_determines_past",
    "C74_never_stuck"
   ],
   "note": "Closed under the global context. The recurrence of C08 is shown to be reversible on its 19937 bits of state (twist and tempering are injective), for any two generators and any number of calls."
  }
 ]
}