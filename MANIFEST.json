{
 "claims": [
  {
   "property": "C01",
   "status": "proved",
   "theorems": [
    "C01_edits_keep_chain",
    "C01_constructor_timestep",
    "C01_shift",
    "C01_truncate"
   ],
   "note": "Any list of legal edits, from any well-formed tube; also time-step constructor, shift and truncation."
  },
  {
   "property": "C02",
   "status": "proved",
   "theorems": [
    "C02_sample_same_trajectories",
    "C02_sample_gates",
    "C02_sample_values",
    "C02_sample_tube"
   ],
   "note": ""
  },
  {
   "property": "C03",
   "status": "proved",
   "theorems": [
    "C03_remove_gate",
    "C03_merge_similar",
    "C03_merge_one"
   ],
   "note": ""
  },
  {
   "property": "C04",
   "status": "proved",
   "theorems": [
    "C04_eval_instant",
    "C04_eval_interval",
    "C04_codomain",
    "C04_outside",
    "C04_eval_exact",
    "C04_interval_least"
   ],
   "note": ""
  },
  {
   "property": "C05",
   "status": "proved",
   "theorems": [
    "C05_eval_bounds"
   ],
   "note": ""
  },
  {
   "property": "C06",
   "status": "partial",
   "theorems": [
    "C06_invert_instant_refuted",
    "C06_invert_partial",
    "C06_invert_point_partial",
    "C06_invert_list",
    "C06_invert_in_search",
    "C06_invert_none"
   ],
   "note": "invert(y,search) returns the empty set when search is a single instant placed on a gate (refuted); proved for search domains with distinct bounds, for instants that are no slice lower bound, and without restriction for the version returning subsets."
  },
  {
   "property": "C07",
   "status": "proved",
   "theorems": [
    "C07_set_instant",
    "C07_set_instant_keeps",
    "C07_set_interval",
    "C07_set_all"
   ],
   "note": ""
  },
  {
   "property": "C08",
   "status": "proved",
   "theorems": [
    "C08_add",
    "C08_sub",
    "C08_mul",
    "C08_neg",
    "C08_unary",
    "C08_binary",
    "C08_assign",
    "C08_binary_ok",
    "C08_unary_ok"
   ],
   "note": "For any inclusion-correct interval arithmetic."
  },
  {
   "property": "C09",
   "status": "proved",
   "theorems": [
    "C09_inter",
    "C09_union_l",
    "C09_union_r",
    "C09_inter_assign",
    "C09_union_assign"
   ],
   "note": ""
  },
  {
   "property": "C10",
   "status": "proved",
   "theorems": [
    "C10_contains",
    "C10_contains_terminates"
   ],
   "note": "Exact instants; see C87 for instants that are doubles, where the loop may not end."
  },
  {
   "property": "C11",
   "status": "partial",
   "theorems": [
    "C11_equality",
    "C11_difference",
    "C11_subset",
    "C11_subset_trajectories",
    "C11_superset_trajectories",
    "C11_refl",
    "C11_trans",
    "C11_antisym",
    "C11_subset_other_slicing_refuted"
   ],
   "note": "Proved for tubes with the same slicing (is_superset for any slicing); with different slicings is_subset may be true although a trajectory of this is not in x (refuted)."
  },
  {
   "property": "C12",
   "status": "proved",
   "theorems": [
    "C12_integral",
    "C12_riemann",
    "C12_between",
    "C12_degenerate",
    "C12_reversed_refuted"
   ],
   "note": "Without synthesis tree. C12_degenerate: integral([t1],[t2]) for both orders of the bounds, in exact arithmetic; C12_integral, C12_riemann and C12_between: any inclusion-correct arithmetic, interval bounds, t1 before t2. With interval bounds and t2 before t1 the enclosure fails (C12_reversed_refuted). The products of two doubles in the loop are exact in the model."
  },
  {
   "property": "C13",
   "status": "partial",
   "theorems": [
    "C13_slice",
    "C13_time_to_index",
    "C13_slice_at",
    "C13_codomain",
    "C13_eval",
    "C13_invert_sound",
    "C13_invert_refuted",
    "C13_range_refuted"
   ],
   "note": "Proved after every history for slice(i) (index in range), slice(t), time_to_index(t), operator()([t]) and codomain(). invert(): the result of the tree may be larger than the one of the list of slices (C13_invert_refuted), it still contains every solution (C13_invert_sound). Out-of-range indexes are not detected with the tree (C13_range_refuted)."
  },
  {
   "property": "C14",
   "status": "partial",
   "theorems": [
    "C14_partial",
    "C14_refuted"
   ],
   "note": "Refuted: integral(); set(); codomain(); integral() returns the integral of the first tube (C14_refuted). Proved for the histories made of writes and integrals only, for bounded slices whose bounds are not zero (see C15)."
  },
  {
   "property": "C15",
   "status": "partial",
   "theorems": [
    "C15_partial",
    "C15_or_empty",
    "C15_refuted"
   ],
   "note": "Refuted: a slice [0,1] and t inside of the slice give the empty set (C15_refuted). Proved in exact arithmetic when no bound of a slice is zero (C15_partial); otherwise each result is an enclosure or the empty set (C15_or_empty). Bounded slices only: with unbounded ones the code computes an interval with a NaN bound, which is not modelled."
  },
  {
   "property": "C16",
   "status": "partial",
   "theorems": [
    "C16_truncate_refuted",
    "C16_truncate_gates_partial",
    "C16_truncate_ends_partial",
    "C16_truncate_domain"
   ],
   "note": "A bound inside a slice becomes a gate with the value of the former gate (refuted); proved when the bounds are gates, and otherwise for trajectories going through the end gates."
  },
  {
   "property": "C17",
   "status": "proved",
   "theorems": [
    "C17_shift",
    "C17_shift_back"
   ],
   "note": ""
  },
  {
   "property": "C18",
   "status": "proved",
   "theorems": [
    "C18_inflate"
   ],
   "note": ""
  },
  {
   "property": "C19",
   "status": "partial",
   "theorems": [
    "C19_no_loss_refuted",
    "C19_contracts_refuted",
    "C19_no_loss_partial",
    "C19_contracts_partial",
    "C19_contracts_tame"
   ],
   "note": "Solutions beyond FLT_MAX may be lost, and tubes reaching FLT_MAX may be enlarged (both refuted); proved for values up to FLT_MAX, and inclusion proved for tubes strictly inside."
  },
  {
   "property": "C20",
   "status": "partial",
   "theorems": [
    "C20_interval_refuted",
    "C20_bound_refuted",
    "C20_instant_partial",
    "C20_interval_partial",
    "C20_shrinks"
   ],
   "note": "An interval of instants over several slices may lose solutions (a propagated front emptied by a gate), and so does an interval that meets the temporal domain at its first instant only (both refuted). Proved for known instants, and for intervals of instants whose inner gates contain the value of the solution, up to FLT_MAX; t and z only shrink. The intersection of a polygon with a box is abstracted."
  },
  {
   "property": "C21",
   "status": "partial",
   "theorems": [
    "C21_scalar_value_refuted",
    "C21_vector_value_refuted",
    "C21_scalar_instant",
    "C21_scalar_value_partial",
    "C21_vector_instant",
    "C21_vector_value_partial",
    "C21_shrinks"
   ],
   "note": "The values over all the subsets of instants are intersected: z loses solutions as soon as there are two subsets (refuted). Proved: the instant is always kept, the value is kept for one subset."
  },
  {
   "property": "C22",
   "status": "proved",
   "theorems": [
    "C22_no_loss",
    "C22_contracts",
    "C22_vector_no_loss"
   ],
   "note": "CtcDelay on a tube and on a vector of tubes."
  },
  {
   "property": "C23",
   "status": "proved",
   "theorems": [
    "C23_no_loss",
    "C23_contracts"
   ],
   "note": "CtcStatic (and the slice loop of CtcFunction, which is the same with no time and no restricted domain), for any static contractor."
  },
  {
   "property": "C24",
   "status": "proved",
   "theorems": [
    "C24_union",
    "C24_union_contracts",
    "C24_cart_prod",
    "C24_cart_prod_contracts",
    "C24_box",
    "C24_box_contracts",
    "C24_constell",
    "C24_constell_contracts",
    "C24_segment",
    "C24_segment_contracts"
   ],
   "note": "CtcUnion, CtcCartProd, CtcBox, CtcConstell and CtcSegment (its IBEX forward/backward contractors are abstract), for any sound sub-contractors."
  },
  {
   "property": "C25",
   "status": "proved",
   "theorems": [
    "C25_no_loss",
    "C25_contracts"
   ],
   "note": "For any inclusion-correct arithmetic."
  },
  {
   "property": "C26",
   "status": "partial",
   "theorems": [
    "C26_no_loss_refuted",
    "C26_no_loss_partial",
    "C26_catan2_partial",
    "C26_catan2_depth",
    "C26_catan2_axes_partial",
    "C26_axes_partial",
    "C26_axis_refuted",
    "C26_contracts"
   ],
   "note": "The origin is lost (refuted for any inclusion-correct arithmetic). Every point with rho>0 is kept, on the axes too, when y<>0, or Y is [0], or theta has another value in its domain; C26_axes_partial assumes that sin of a multiple of pi is [0] and that the product by [0] is [0] (exact pi). On the axis of x, with a single theta and a larger Y, the point is lost with the IBEX division by [0,0] (C26_axis_refuted)."
  },
  {
   "property": "C27",
   "status": "partial",
   "theorems": [
    "C27_refuted",
    "C27_no_loss_partial",
    "C27_contracts"
   ],
   "note": "CtcTransform evaluates the inverse on the box instead of the contracted image: refuted with a translation; kept when the image of the point is also in the box; always contracts."
  },
  {
   "property": "C28",
   "status": "proved",
   "theorems": [
    "C28_schedules",
    "C28_no_loss"
   ],
   "note": "Any history of additions, contractions stopped after any number of calls, ordered mode and triggers. C28_schedules holds for any kind of domain and contractor; C28_no_loss is the instance for interval variables, with Contractor::contract modelled."
  },
  {
   "property": "C29",
   "status": "proved",
   "theorems": [
    "C29_domains_shrink"
   ],
   "note": "For interval variables and contracting contractors."
  },
  {
   "property": "C30",
   "status": "partial",
   "theorems": [
    "C30_queue",
    "C30_returns",
    "C30_waiting_partial",
    "C30_drift_refuted",
    "C30_subnetwork_refuted"
   ],
   "note": "Unique presence in the queue, active flag = waiting, and return with an empty queue are proved for every history. A contractor is waiting after one significant contraction; this fails for the accumulation of small contractions and for sub-networks (both refuted)."
  },
  {
   "property": "C31",
   "status": "partial",
   "theorems": [
    "C31_unbounded_refuted",
    "C31_degenerate_refuted",
    "C31_fixed_point_partial"
   ],
   "note": "Refuted for unbounded domains (volume coded 999999) and for degenerate domains that become empty; proved for bounded scalar domains when no domain becomes empty."
  },
  {
   "property": "C32",
   "status": "partial",
   "theorems": [
    "C32_order_partial",
    "C32_add_partial",
    "C32_objects_refuted",
    "C32_subnetwork_refuted",
    "C32_layout_refuted"
   ],
   "note": "Proved for contractors that are not sub-networks, up to the class of CtcEval/CtcDeriv/CtcDist and for memory layouts where no contractor address is a domain address; refuted otherwise (two CtcEval objects with different settings are identified, the key of a sub-network is uninitialised)."
  },
  {
   "property": "C33",
   "status": "partial",
   "theorems": [
    "C33_keeps",
    "C33_partial",
    "C33_refuted"
   ],
   "note": "Every trajectory of the tube consistent with the data is kept, for each tube and each sequence of bounded data (C33_keeps). The tube is only contracted when its slices contain the data beforehand (C33_partial); otherwise values may be added, the envelope being replaced and not intersected (C33_refuted)."
  },
  {
   "property": "C34",
   "status": "partial",
   "theorems": [
    "C34_eval",
    "C34_interval",
    "C34_refuted"
   ],
   "note": "Evaluation at t and over [t1,t2] (the result is even the smallest interval) for a sampled trajectory. Refuted for a trajectory built from two lists, whose codomain stays empty: x(tdomain) is empty (C34_refuted)."
  },
  {
   "property": "C35",
   "status": "partial",
   "theorems": [
    "C35_partial",
    "C35_refuted"
   ],
   "note": "Proved for each sequence of operations that starts from a map of samples. The constructor from lists of times and values leaves the codomain empty (C35_refuted)."
  },
  {
   "property": "C36",
   "status": "partial",
   "theorems": [
    "C36_partial",
    "C36_refuted"
   ],
   "note": "Reflexivity, transitivity and operator!= proved for sampled trajectories; with the same number of samples the operator is equality. It is not symmetric when y has samples more than x (C36_refuted): only the samples of x are compared."
  },
  {
   "property": "C37",
   "status": "proved",
   "theorems": [
    "C37_primitive",
    "C37_finite_diff",
    "C37_diff",
    "C37_diff_refuted"
   ],
   "note": "Constant step for finite_diff and for diff(), as the property states. With irregular sample times diff() is not exact even on x(t)=t (C37_diff_refuted)."
  },
  {
   "property": "C38",
   "status": "partial",
   "theorems": [
    "C38_interval",
    "C38_box",
    "C38_trajectory",
    "C38_trajectory_vector",
    "C38_version",
    "C38_type",
    "C38_truncated_partial",
    "C38_box_refuted",
    "C38_trajectory_refuted",
    "C38_truncated_refuted"
   ],
   "note": "Round trip, with exact consumption of the bytes, for every interval with double bounds, boxes and vectors of less than 2^15 components, trajectories with consistent caches. Refuted: more components wrap the short size (C38_box_refuted); a trajectory built from lists comes back with another codomain (C38_trajectory_refuted); a truncated input throws nothing, uninitialised values are used (C38_truncated_refuted), it never gives a value in the model (C38_truncated_partial). Wrong versions and unknown interval types are rejected."
  },
  {
   "property": "C39",
   "status": "partial",
   "theorems": [
    "C39_partial",
    "C39_vector",
    "C39_file",
    "C39_read_ok",
    "C39_truncated_partial",
    "C39_refuted"
   ],
   "note": "Round trip of tubes, vectors and files for the tubes whose gates are in the adjacent codomains. Refuted with a gate set without consistency (C39_refuted). Whatever the bytes, a tube that is read is well formed (C39_read_ok)."
  },
  {
   "property": "C40",
   "status": "partial",
   "theorems": [
    "C40_ctc",
    "C40_sep",
    "C40_refuted"
   ],
   "note": "For any diff and bisector that meet their (IBEX) contracts: each solution of the initial box is in an UNKNOWN box (contractors) or in an IN/UNKNOWN box (separators), the boxes cover the initial box, the UNKNOWN boxes are smaller than the precision; each point of an OUT (IN) box is a limit of non solutions (solutions), and is itself one with regular_paving. Refuted without regular_paving: OUT boxes are closed and a flat contracted box makes solutions OUT."
  },
  {
   "property": "C41",
   "status": "proved",
   "theorems": [
    "C41_ctc",
    "C41_sep"
   ],
   "note": "For bounded initial boxes, a positive precision and a bisector that divides the largest component, by a weight that decreases at each step. The bisector of IBEX is a parameter, with an instance that meets the contract."
  },
  {
   "property": "C42",
   "status": "partial",
   "theorems": [
    "C42",
    "C42_built",
    "C42_sivia",
    "C42_dangling",
    "C42_refuted"
   ],
   "note": "Proved, with termination, for each two-dimensional paving that has not been copied, whatever the flags before; the pavings built by any sequence of bisect/set_value/reset_paving and by SIVIAPaving satisfy the hypotheses. Refuted for copies: they keep the root of the original, so leaves of the original are returned and linked leaves are separated; when the original is deleted the root is dangling, for every paving."
  },
  {
   "property": "C43",
   "status": "partial",
   "theorems": [
    "C43_default",
    "C43_partial",
    "C43_sivia",
    "C43_refuted"
   ],
   "note": "Exact for the default neg_val, and for a neg_val that is consistent with the values of the inner nodes. Refuted otherwise: inner nodes of a SIVIAPaving stay UNKNOWN, get_boxes(l,IN,UNKNOWN|OUT) returns nothing."
  },
  {
   "property": "C44",
   "status": "proved",
   "theorems": [
    "C44_keeps",
    "C44_least",
    "C44_ctc",
    "C44_sep",
    "C44_assert"
   ],
   "note": "For each list of boxes of the same size (empty boxes, ties, infinite bounds) and q>0; least interval per axis, empty exactly when an axis has no value in q boxes; CtcQInterProjF and SepQInterProjF for 0<=q<n, for any number of valid sub-separators; C44_assert: other values of q stop in an assertion."
  },
  {
   "property": "C45",
   "status": "partial",
   "theorems": [
    "C45_box",
    "C45_transform_partial",
    "C45_refuted"
   ],
   "note": "SepBox: proved for all pairs of boxes. SepTransform: proved from a common box x_in=x_out (functions of IBEX by contract); refuted for two different boxes, since x_in is first intersected with x_out."
  },
  {
   "property": "C46",
   "status": "partial",
   "theorems": [
    "C46_first",
    "C46_refuted"
   ],
   "note": "The first constructor gives a separator of the projection (CtcExist, CtcForAll of IBEX by contract). Refuted for the two other constructors, whatever the arguments: the pointers are left indeterminate and are dereferenced by separate() and by the destructor."
  },
  {
   "property": "C47",
   "status": "partial",
   "theorems": [
    "C47_point_partial",
    "C47_yes_refuted",
    "C47_no_refuted"
   ],
   "note": "Points, exact arithmetic, strictly convex polygons: the verdict is exact (MAYBE exactly on the boundary, YES exactly inside, NO exactly outside). Refuted for thick points: YES for a thick point whose points are all outside, NO for one whose points are all strictly inside."
  },
  {
   "property": "C48",
   "status": "partial",
   "theorems": [
    "C48_partial",
    "C48_refuted"
   ],
   "note": "Distinct points around the pivot (what the hull algorithm sorts), exact arithmetic: strict total order, by angle then by distance. Refuted on equal arguments: each point comes before itself, so the comparator does not meet the requirements of std::sort."
  },
  {
   "property": "C49",
   "status": "proved",
   "theorems": [
    "C49",
    "C49_sample",
    "C49_new",
    "C49_new_dt",
    "C49_delete_gates_partial",
    "C49_delete_gates_refuted",
    "C49_no_gate_refuted"
   ],
   "note": "Any sequence of samplings, inside and outside of the domain, with and without gates, from any partition; both constructors build partitions. Exact instants. Also: with gates the returned TSlice is a gate at t, the trajectories of the tube are unchanged. C49_delete_gates_refuted: delete_gates on a domain reduced to one instant leaves no TSlice; C49_no_gate_refuted: sample(t0,false) adds an unbounded gate."
  },
  {
   "property": "C50",
   "status": "partial",
   "theorems": [
    "C50_partial",
    "C50_refuted"
   ],
   "note": "Holds for each domain with gates everywhere, and exact for the domains that begin and end with a gate. Refuted in general: true for two slices without any gate."
  },
  {
   "property": "C51",
   "status": "partial",
   "theorems": [
    "C51_set_partial",
    "C51_set_refuted",
    "C51_assign_partial",
    "C51_assign_refuted"
   ],
   "note": "set: the values become y exactly when the old value of each gate and of each slice that follows a slice meets y, otherwise the whole tube becomes empty (proved both ways). operator=: proved when the old content contains the new one. Refuted in general: two slices with old value 0, set(1) empties the tube; x=z with disjoint old content empties x."
  },
  {
   "property": "C52",
   "status": "partial",
   "theorems": [
    "C52",
    "C52_ctc",
    "C52_invert",
    "C52_compose",
    "C52_assoc",
    "C52_inverse",
    "C52_image",
    "C52_action",
    "C52_inverse_action",
    "C52_refuted",
    "C52_no_inverse_refuted"
   ],
   "note": "All of it proved for signed permutations of any size: group laws, exact action on boxes, CtcAction keeps exactly the points whose image is kept. Refuted for all accepted objects: the constructor accepts (1,1), which has no inverse and whose CtcAction loses solutions."
  },
  {
   "property": "C53",
   "status": "partial",
   "theorems": [
    "C53_partial",
    "C53_leaf_partial",
    "C53_filter_partial",
    "C53_leaves",
    "C53_refuted",
    "C53_dynamic_refuted"
   ],
   "note": "Exact on a leaf and without filter for fixed dimensions; with a filter no box is forgotten and only non-empty leaves are given; leaves_list is exact. Refuted: the filter is not passed to the children, so boxes that do not meet it are given; with a dynamic dimension the call reads components that do not exist."
  },
  {
   "property": "C54",
   "status": "partial",
   "theorems": [
    "C54_loops_kept_partial",
    "C54_fresh_partial",
    "C54_cover",
    "C54_in",
    "C54_refuted",
    "C54_unbounded_refuted"
   ],
   "note": "False as stated: the strict tests discard a robot at rest in thin tubes (C54_refuted), and unbounded tubes discard everything (C54_unbounded_refuted). For bounded tubes, every pair for which the tubes allow a strict motion both ways in each dimension is never put in an OUT node (C54_loops_kept_partial for any plane, C54_fresh_partial for a new one). The leaves still cover the plane (C54_cover); on an IN leaf the instants are ordered and the position tubes overlap (C54_in)."
  },
  {
   "property": "C55",
   "status": "partial",
   "theorems": [
    "C55_subset",
    "C55_intersects",
    "C55_subset_complete",
    "C55_intersects_complete",
    "C55_disjoint_only",
    "C55_disjoint_refuted",
    "C55_disjoint_missed_refuted",
    "C55_not_subset_partial",
    "C55_not_subset_refuted",
    "C55_superset",
    "C55_subset_of",
    "C55_inter_partial",
    "C55_inter_refuted",
    "C55_inside_partial",
    "C55_inside_sure",
    "C55_inside_refuted",
    "C55_box_subset",
    "C55_box_intersects",
    "C55_box_not_subset_partial",
    "C55_box_subset_t_refuted",
    "C55_box_subset_t_never",
    "C55_box_superset",
    "C55_box_inter_partial",
    "C55_box_inside_partial"
   ],
   "note": "Sound for all bounds: is_subset and intersects (and complete for reachable bounded bounds), superset, inside and outside answers, boxes likewise. Refuted: is_disjoint answers true for intervals that touch and misses disjoint ones, is_not_subset is true for equal bounds, is_inside answers MAYBE for intervals that share a bound, inter caps the bounds at 1e10, is_subset of thick boxes is never true."
  },
  {
   "property": "C56",
   "status": "proved",
   "theorems": [
    "C56_between"
   ],
   "note": ""
  },
  {
   "property": "C57",
   "status": "proved",
   "theorems": [
    "C57_vectors"
   ],
   "note": ""
  },
  {
   "property": "C58",
   "status": "partial",
   "theorems": [
    "C58_partial",
    "C58_refuted"
   ],
   "note": "Refuted: a gate is shared by two slices, the setters notify the leaf of one of them only (C58_refuted). Proved when the writes come before the queries."
  },
  {
   "property": "C59",
   "status": "partial",
   "theorems": [
    "C59_binary",
    "C59_unary",
    "C59_assign_partial",
    "C59_function_partial",
    "C59_function_refuted",
    "C59_assign_refuted"
   ],
   "note": "The operators + - * / and unary functions are pointwise; atan2, min and max only when the sample times are the same (C59_function_refuted pairs values of different times); x op= y leaves an analytic x unchanged (C59_assign_refuted)."
  },
  {
   "property": "C61",
   "status": "proved",
   "theorems": [
    "C61_values"
   ],
   "note": "Sampled trajectories."
  },
  {
   "property": "C60",
   "status": "partial",
   "theorems": [
    "C60_partial",
    "C60_vector_partial",
    "C60_refuted",
    "C60_self_refuted",
    "C60_leak_refuted",
    "C60_vector_refuted"
   ],
   "note": "Proved for the programs without self-assignment and without assignment to an object sampled before (C60_partial), and for the assignment of a vector to another one (C60_vector_partial). Refuted: sample() then assignment of an analytic trajectory releases the expression twice (C60_refuted); self-assignment reads a released expression (C60_self_refuted) or empties a vector (C60_vector_refuted); assigning a sampled trajectory to an analytic one leaks (C60_leak_refuted)."
  },
  {
   "property": "C62",
   "status": "partial",
   "theorems": [
    "C62_partial",
    "C62_refuted",
    "C62_around_refuted"
   ],
   "note": "Proved, with equality, for a tube without prior knowledge and data that do not start before the tube (C62_partial). Refuted in general: a slice already inside of its envelope hides the previous ones (C62_refuted), two data around the tube do nothing (C62_around_refuted)."
  },
  {
   "property": "C63",
   "status": "partial",
   "theorems": [
    "C63_ends",
    "C63_ctc",
    "C63_sep",
    "C63_fun",
    "C63_refuted"
   ],
   "note": "Classification for contractors, separators and functions defined everywhere, termination on bounded boxes for a bisector that divides the largest component (IBEX bisector and function evaluation are parameters with contracts). Refuted for partially defined functions: an empty image is a subset of y, the box is IN."
  },
  {
   "property": "C64",
   "status": "partial",
   "theorems": [
    "C64_partial",
    "C64_refuted"
   ],
   "note": "Proved when at most one of the two contractions has an effect during the iterations. Refuted in general, with all assertions satisfied: points out of the set are removed from x_in."
  },
  {
   "property": "C65",
   "status": "partial",
   "theorems": [
    "C65_intersection_partial",
    "C65_parallel_yes",
    "C65_intersection_refuted",
    "C65_parallel_no_refuted"
   ],
   "note": "Proved for any inclusion-correct arithmetic, for thick end points, when the selected segments are not parallel or are both parallel to an axis; YES of parallel() is proved. Refuted with the exact arithmetic: two slanted edges on the same line have an empty intersection (0/0), parallel() answers NO for parallel slanted edges."
  },
  {
   "property": "C66",
   "status": "partial",
   "theorems": [
    "C66_hull",
    "C66_turns",
    "C66_ccw",
    "C66_contains",
    "C66_turns_refuted"
   ],
   "note": "Exact arithmetic: vertices among the points and same convex hull, for every list; no clockwise turn from four distinct points on, strictly convex in general position; verdicts of contains() transferred to the hull of the points. Refuted for three points: they are returned in their order, possibly clockwise. Missing: rounded orientation tests."
  },
  {
   "property": "C67",
   "status": "partial",
   "theorems": [
    "C67_partial",
    "C67_at",
    "C67_refuted",
    "C67_outside_refuted"
   ],
   "note": "Proved when b is before the end of the domain and the old content contains y around [a,b]; at an instant: no trajectory outside y at t is left, none of the others is lost. Refuted for b=tf: on the slices [0,5],[5,7],[7,10], x([5,10])=y leaves [7,10] unset; and for b>tf."
  },
  {
   "property": "C68",
   "status": "proved",
   "theorems": [
    "C68_eval",
    "C68_eval_itv",
    "C68_codomain"
   ],
   "note": "Evaluation at an instant encloses, and is exactly the intersection of the values of the TSlices at this instant when gates are included in the neighbouring slices; evaluation on a bounded interval encloses the values of the trajectories; codomain() encloses them too and is the smallest interval that contains the values of the slices."
  },
  {
   "property": "C69",
   "status": "proved",
   "theorems": [
    "C69"
   ],
   "note": "Any two tubes on the same temporal domain, with or without gates, empty or not."
  },
  {
   "property": "C70",
   "status": "proved",
   "theorems": [
    "C70_empty",
    "C70_subset",
    "C70_strict_subset",
    "C70_contains",
    "C70_intersects",
    "C70_disjoint",
    "C70_eq",
    "C70_inter",
    "C70_hull"
   ],
   "note": "Boxes of any dimension as sets of points."
  },
  {
   "property": "C71",
   "status": "proved",
   "theorems": [
    "C71_largest",
    "C71_thinnest",
    "C71_bisect"
   ],
   "note": "Interval::bisect of IBEX by contract (cuts strictly inside)."
  },
  {
   "property": "C72",
   "status": "proved",
   "theorems": [
    "C72_diff",
    "C72_complementary"
   ],
   "note": "Interval::diff of IBEX by contract, with an instance."
  },
  {
   "property": "C73",
   "status": "partial",
   "theorems": [
    "C73",
    "C73_hull_box",
    "C73_volume",
    "C73_is_empty_partial",
    "C73_is_empty_refuted",
    "C73_volume_refuted"
   ],
   "note": "Proved for pavings built by bisections, hull_box for each paving, is_empty sound for each paving and exact with both children or none. Refuted: a node with a single child is said not empty though its leaf is; the volume of an unbounded box with a degenerated component depends on the order of the components."
  },
  {
   "property": "C74",
   "status": "partial",
   "theorems": [
    "C74_not",
    "C74_and",
    "C74_or",
    "C74_restrict",
    "C74_xor",
    "C74_or_exact",
    "C74_and_exact_refuted",
    "C74_xor_exact_refuted",
    "C74_inter",
    "C74_union",
    "C74_union_least",
    "C74_thick_inter_refuted",
    "C74_thick_inter_comm_refuted",
    "C74_thick_inter_partial",
    "C74_singleton",
    "C74_upper",
    "C74_lower",
    "C74_sup_sub",
    "C74_test_and",
    "C74_test_or",
    "C74_test_inter",
    "C74_test_qinter",
    "C74_qinter_empty_refuted"
   ],
   "note": "All the operators are sound and the tests on lists as well (q-intersection for consistent lists); or is exact. Refuted: and, xor are not the tightest; thick intersection is neither sound nor commutative (partial: where it is); an EMPTY answer is counted as OUT by the q-intersection."
  },
  {
   "property": "C75",
   "status": "partial",
   "theorems": [
    "C75",
    "C75_refine",
    "C75_same",
    "C75_union",
    "C75_intersection",
    "C75_constructor_or_refuted"
   ],
   "note": "Proved with the operator of intersection (the default) from a fresh box, and with each right operator from a right paving. Refuted: the constructor gives the box the value MAYBE whatever the operator, so a paving built with the union is not right. Bisector and size test by contract, termination by fuel."
  },
  {
   "property": "C76",
   "status": "partial",
   "theorems": [
    "C76_outside_partial",
    "C76_inside_partial",
    "C76_contracts",
    "C76_contains_partial",
    "C76_contains_least",
    "C76_outside_refuted",
    "C76_contains_refuted"
   ],
   "note": "Proved for boxes that are not flat (for contains: that overlap the paving in each dimension); contraction is proved for each box. Refuted for flat boxes: all the points are lost, contains answers EMPTY."
  },
  {
   "property": "C77",
   "status": "partial",
   "theorems": [
    "C77_reunite",
    "C77_reduced",
    "C77_values",
    "C77_flag",
    "C77_change",
    "C77_complement",
    "C77_load_partial",
    "C77_load_refuted"
   ],
   "note": "reunite and change proved for each tree made of bisections. Files: shape, values and dimensions come back, the rest of the file is not read. Refuted: each loaded box is a point, the first bound repeated."
  },
  {
   "property": "C78",
   "status": "partial",
   "theorems": [
    "C78_disk_partial",
    "C78_set_params_partial",
    "C78_disk_thin",
    "C78_disk_refuted",
    "C78_set_params_refuted",
    "C78_thinf",
    "C78_thickf_partial",
    "C78_translate_partial"
   ],
   "note": "Disks: proved for each radius with the constructor from numbers, for outer radii of at least 1 with the one from intervals, after setParams for a centre inside the first one. Refuted: bounding box made of the squared radius (radius 1/2: a point inside is OUT); setParams does not move the bounding box. Thin functions proved, thick functions and translated boxes where ThickBox::is_inside is right."
  },
  {
   "property": "C79",
   "status": "partial",
   "theorems": [
    "C79_no_loss",
    "C79_contracts",
    "C79_scalar",
    "C79_all_slices",
    "C79_intertemporal_refuted"
   ],
   "note": "For functions of the current instant (TFunction): no solution is lost (C79_no_loss), contraction for any function whatsoever (C79_contracts), scalar version (C79_scalar); when the slicing may change, each final slice has a bounded envelope or is no longer than 1/500 of the domain (C79_all_slices); when a run ends within the fuel of the model. Refuted for functions that depend on other instants (is_intertemporal): x'(t)=x(1) loses x(t)=t, because the guessed envelope contracts the gate that the function reads (C79_intertemporal_refuted)."
  },
  {
   "property": "C80",
   "status": "partial",
   "theorems": [
    "C80_vector",
    "C80_scalar_partial",
    "C80_gate_refuted",
    "C80_ends"
   ],
   "note": "TubeVector version proved. For the scalar tube the OUT boxes are right, and the IN boxes at every instant that is not a bound of a slice; at a bound the IN claim is false because the gates are not looked at (refuted with a two-slice tube). Termination is proved for a bisector that shrinks boxes. Not modelled: delete of an array (undefined in C++), synthesis trees."
  },
  {
   "property": "C81",
   "status": "partial",
   "theorems": [
    "C81_no_loss",
    "C81_chain",
    "C81_exp_refuted",
    "C81_contracts_refuted",
    "C81_bound_refuted"
   ],
   "note": "Soundness is proved when the exponential stays between its values at the two bounds of the slice (C81_no_loss), and always for CtcChain (C81_chain). Without this condition trajectories are lost (C81_exp_refuted), those beyond 9999 are lost too (C81_bound_refuted), and the result may exceed the given tube (C81_contracts_refuted). The polygons and the matrix exponential are given by contracts."
  },
  {
   "property": "C82",
   "status": "partial",
   "theorems": [
    "C82_thick_partial",
    "C82_thick_inside",
    "C82_thick_refuted",
    "C82_box",
    "C82_add_partial",
    "C82_add_exact_partial",
    "C82_rounding_refuted",
    "C82_neg",
    "C82_neg_order",
    "C82_sub_partial",
    "C82_sub_exact_partial",
    "C82_box_sub_partial",
    "C82_mul_partial",
    "C82_mul_exact",
    "C82_union",
    "C82_box_union",
    "C82_rotate_partial",
    "C82_rotate_exact",
    "C82_default",
    "C82_center"
   ],
   "note": "Proved with an exact convex hull and any inclusion-correct interval operators when each computed box is a point or has a side of at least 1e-10 (suffix _partial); -x, the box constructor, the union, a matrix of numbers and a rotation by numbers need no condition. Refuted: a box smaller than 1e-10 loses its points (C82_thick_refuted), and with operators that round outwards even a translation by a point does (C82_rounding_refuted)."
  },
  {
   "property": "C83",
   "status": "partial",
   "theorems": [
    "C83_inter",
    "C83_box",
    "C83_segment_partial",
    "C83_point_partial",
    "C83_any_box_partial",
    "C83_degenerate_edge",
    "C83_point_refuted"
   ],
   "note": "Proved in both directions for two strictly convex polygons with at least three vertices (C83_inter) and for a box that is not flat (C83_box). For a segment, a point or any bounded box no common point is lost (C83_segment_partial, C83_point_partial, C83_any_box_partial). Refuted: ThickEdge::contains answers MAYBE for any point when the edge is a point (C83_degenerate_edge), so the intersection of a triangle with a point on a vertical edge keeps the whole edge (C83_point_refuted)."
  },
  {
   "property": "C84",
   "status": "partial",
   "theorems": [
    "C84_encloses",
    "C84_convex",
    "C84_limit",
    "C84_small",
    "C84_size_partial",
    "C84_size_refuted",
    "C84_least_partial",
    "C84_least_refuted"
   ],
   "note": "With exact operators: the result encloses the polygon (C84_encloses), is strictly convex (C84_convex) and stays in the inflated box (C84_limit); small polygons are unchanged (C84_small). The number of vertices is proved up to the two early returns (C84_size_partial), and refuted in general: a square is not reduced to three vertices (C84_size_refuted), a diamond is replaced by a box (C84_diamond). The removed edge adds the least surface among the edges other than the first (C84_least_partial); refuted for the first one: min_i == 0 also means that nothing was found yet (C84_least_refuted)."
  },
  {
   "property": "C85",
   "status": "partial",
   "theorems": [
    "C85_fast",
    "C85_edge_partial",
    "C85_edge_refuted"
   ],
   "note": "fast_intersection proved for each strictly convex polygon and each box with exact operators (C85_fast). ThickEdge & x proved for edges between two numbers when x is not a point or the edge is horizontal or vertical (C85_edge_partial); refuted when x is a point of a slanted edge: the answer is empty (C85_edge_refuted). Edges with thick ends are not covered."
  },
  {
   "property": "C86",
   "status": "partial",
   "theorems": [
    "C86",
    "C86_answers",
    "C86_gate_refuted"
   ],
   "note": "Proved when the temporal domain is not reduced to an instant: YES and NO are reliable for all arrangements of slices and gates, and the loop ends with exact instants. C86_gate_refuted: a tube made of a single gate is never examined and gets YES for all trajectories."
  },
  {
   "property": "C87",
   "status": "partial",
   "theorems": [
    "C87_verdict",
    "C87_never",
    "C87_codac2_never",
    "C87_answers_partial",
    "C87_refuted"
   ],
   "note": "The verdict is reliable for every rounding mode (C87_verdict). Termination is false: C87_never shows that a trajectory that leaves the slice and comes back later gets no answer, whatever the rounding mode, in codac and in codac2 (C87_codac2_never); C87_refuted is a concrete slice. C87_answers_partial: it answers when all intervals longer than a bound relative to the instants are decided."
  },
  {
   "property": "C88",
   "status": "partial",
   "theorems": [
    "C88",
    "C88_release_refuted"
   ],
   "note": "Proved with the assertions compiled (default build); without them (NDEBUG), refuted with SepBox: reconstrut_v2 does not give the boxes back when x_in is empty and x_out was already contracted."
  },
  {
   "property": "C89",
   "status": "partial",
   "theorems": [
    "C89_partial",
    "C89_outer_partial",
    "C89_refuted"
   ],
   "note": "A fixpoint that empties x_out while x_in is already contracted loses points (refuted with a union of three SepBox); proved when this does not happen, in particular for separators that never contract x_in."
  },
  {
   "property": "C90",
   "status": "partial",
   "theorems": [
    "C90_partial",
    "C90_outer_partial",
    "C90_refuted"
   ],
   "note": "An assertion fails with SepBox in the default build (refuted); proved for the first turn of the loop, and for each turn with separators that never contract x_in."
  },
  {
   "property": "C91",
   "status": "partial",
   "theorems": [
    "C91_once_partial",
    "C91_bdry_partial",
    "C91_no_abort",
    "C91_return",
    "C91_eps",
    "C91_refuted"
   ],
   "note": "Proved for at most one Reunite with any sound separator, and for any number of Sivia and Reunite with separators that keep the boundary of S (C91_bdry_partial). With a sound separator that removes a point of the boundary, a second Reunite makes isInside answer NO for a point of S (refuted). The value returned by reunite is always false (C91_return), contrary to its documentation."
  },
  {
   "property": "C92",
   "status": "partial",
   "theorems": [
    "C92_partial",
    "C92_flat_refuted",
    "C92_pair_refuted",
    "C92_outside_refuted"
   ],
   "note": "Proved for the same box given twice (what Sivia-like algorithms do), inside the initial box of the paving, when xborder is not flat in a direction where the box is not, and separators that keep the boundary. Each of the restrictions is necessary: refuted for a flat xborder, for two different boxes and for a box that sticks out of the paving."
  },
  {
   "property": "C93",
   "status": "partial",
   "theorems": [
    "C93_partial",
    "C93_flat_refuted",
    "C93_eps_refuted"
   ],
   "note": "Proved up to the boundary of S (YES: closure of S, NO: interior of S; exact for T), if no inner node is left with a common part of width not greater than eps. Refuted for points of the boundary of S (flat boxes of the right child are emptied) and for an inner node whose common part has the width eps (children not updated)."
  },
  {
   "property": "C94",
   "status": "partial",
   "theorems": [
    "C94_contracts",
    "C94_step_partial",
    "C94_dim1_partial",
    "C94_uncut_partial",
    "C94_refuted",
    "C94_round_refuted",
    "C94_zero_refuted"
   ],
   "note": "Refuted as stated: in dimension 2 with the default parameters and exact arithmetic, contractStep moves u_hat while r is only intersected, and a solution is lost (C94_refuted); the width of f(u_hat) is dropped by mid() (C94_round_refuted, dimension 1); contractions = 0 gives a wrong last gate (C94_zero_refuted). Proved: the result is included in the given tubes at every instant, with the same slices, whatever the functions are (C94_contracts); one integrate step encloses the solution on the slice and at its end for any dimension and any sound arithmetic (f evaluated exactly at points, exact inverse of Q, at least one contraction); the whole contractor in dimension 1 in any directions; the whole contractor in any dimension and one direction when the gates after the first are unconstrained. Missing: gates that cut in dimension >= 2 (false), rounding of the operations on vectors of doubles."
  },
  {
   "property": "C95",
   "status": "partial",
   "theorems": [
    "C95_contracts",
    "C95_out_partial",
    "C95_in_partial",
    "C95_separator_partial",
    "C95_in_refuted",
    "C95_out_refuted"
   ],
   "note": "Both boxes only contract. Every point but the origin goes to the right box when theta has two values and pi <= M_PI (C95_separator_partial, C95_out_partial, C95_in_partial; exact sine of multiples of pi). With the double M_PI a point opposite to the sector is removed from both boxes (C95_in_refuted); the origin, and the axis of x with a single angle, are removed from x_out (C95_out_refuted). An empty rho or theta is not modelled."
  },
  {
   "property": "C96",
   "status": "partial",
   "theorems": [
    "C96_middle_partial",
    "C96_box_partial",
    "C96_box_refuted"
   ],
   "note": "Winding number defined from continuous angles (Winding.v), independent of the code. For the middle of the box: YES implies a non-zero winding number, NO implies that it is not 1, and that it is 0 when the computed angle is narrower than 2 pi (C96_middle_partial). For a box that does not meet the border, the answer holds for all its points (C96_box_partial). Refuted for boxes that meet the border: only the middle is looked at (C96_box_refuted)."
  },
  {
   "property": "C97",
   "status": "partial",
   "theorems": [
    "C97_partial",
    "C97_contracts",
    "C97_ibex_partial",
    "C97_flat_refuted"
   ],
   "note": "SepBoundaryCtc of IBEX modelled from its documentation. Proved when each point of the difference is seen from the middle of its box without crossing the border box (C97_partial), in particular with the difference of IBEX when the border box is not flat (C97_ibex_partial); both results only contract (C97_contracts). Refuted for a box that crosses a single edge parallel to an axis: the border box is flat, the difference is the whole box, and inside points are removed from x_out (C97_flat_refuted)."
  },
  {
   "property": "C98",
   "status": "partial",
   "theorems": [
    "C98_static",
    "C98_no_loss_partial",
    "C98_contracts_partial",
    "C98_no_loss_refuted",
    "C98_null_refuted"
   ],
   "note": "Proved for tubes that share their slicing (then CtcFunction does what CtcStatic does, C98_static). The slicings are not compared: refuted with two tubes over the same domain with the same number of slices (C98_no_loss_refuted), and a null pointer is dereferenced when a tube has fewer slices than the first one (C98_null_refuted)."
  },
  {
   "property": "C99",
   "status": "partial",
   "theorems": [
    "C99_partial",
    "C99_refuted",
    "C99_constant_refuted",
    "C99_single_abort"
   ],
   "note": "Proved at the bounds of the slices for any fit, and at all instants when the polynomials of the upper bound are concave and those of the lower bound convex. Refuted between the bounds of a slice with exact least squares (C99_refuted); a constant tube and a tube of one slice make an assertion fail (C99_constant_refuted, C99_single_abort). Exact doubles, Eigen fit and IBEX bisection as parameters."
  },
  {
   "property": "C100",
   "status": "partial",
   "theorems": [
    "C100_partial",
    "C100_number_partial",
    "C100_sivia",
    "C100_refuted"
   ],
   "note": "C100_partial: with assertions enabled and no leaf IN touching a leaf OUT, zero_proven implies a zero (full winding-number argument, no degree theory assumed); C100_sivia: the hypothesis on IN leaves holds for the pavings of SIVIAPaving. C100_refuted: with a leaf IN next to leaves OUT a zero is announced for a function that has none. Missing: the exact number of zeros (non_singular_jacobian is a parameter)."
  },
  {
   "property": "C101",
   "status": "partial",
   "theorems": [
    "C101_partial",
    "C101_gates_shrink",
    "C101_exp_refuted",
    "C101_contracts_refuted",
    "C101_gates_refuted"
   ],
   "note": "Proved when each coefficient of exp(As) stays between its values at the two bounds over each slice and the first slice is a gate (C101_partial, exact exponential, polygon operations by contract); the gates only shrink (C101_gates_shrink). Refuted: a rotation over a slice of 2 pi loses the solution (C101_exp_refuted), the envelope replaces the codomain and may grow (C101_contracts_refuted), all_gates_defined() holds without gates and the assertions fail (C101_gates_refuted). The overloads on codac::TubeVector and v_domains do nothing and are not modelled."
  },
  {
   "property": "C102",
   "status": "partial",
   "theorems": [
    "C102_matrix_partial",
    "C102_matrix_nonsquare",
    "C102_matrix_refuted",
    "C102_vecto_partial",
    "C102_vecto_left_partial",
    "C102_vecto_refuted"
   ],
   "note": "Square matrices: proved for any sample times (C102_matrix_partial). Matrices that are not square always make an assertion fail although the product is documented for any matrix with as many columns as components (C102_matrix_nonsquare, C102_matrix_refuted). Vector product: exact at the samples of the first component, and everywhere when the others have no other sample time (C102_vecto_partial, C102_vecto_left_partial); the other sample times are ignored (C102_vecto_refuted)."
  },
  {
   "property": "C103",
   "status": "partial",
   "theorems": [
    "C103_to1",
    "C103_to1_traj",
    "C103_to2",
    "C103_round",
    "C103_unbounded_refuted"
   ],
   "note": "to_codac1: same values at all instants for every bounded TDomain (C103_to1, C103_to1_traj). to_codac2: same slicing with gates, same trajectories, same values if the tube is not empty at some instant (C103_to2); an empty gate empties the whole codac2 tube. Round trips: C103_round. Refuted for unbounded TDomains: the unbounded TSlices are meant to be skipped but the constructor asserts a bounded domain (C103_unbounded_refuted). Tube<Interval> only."
  },
  {
   "property": "C104",
   "status": "partial",
   "theorems": [
    "C104_function_partial",
    "C104_values",
    "C104_fnc",
    "C104_delay",
    "C104_delay_values",
    "C104_empty",
    "C104_null_refuted",
    "C104_slicing_refuted"
   ],
   "note": "TFunction on components sharing their slicing: C104_function_partial, exact values C104_values. TFnc in general: C104_fnc (only the components of the result must share their slicing). Delays of one tube: C104_delay, C104_delay_values. An empty component empties everything: C104_empty. Refuted for components with different slicings: a null pointer is read (C104_null_refuted) or slices of different dates are combined and a trajectory is lost (C104_slicing_refuted). DelayTFunction is limited to one component (TFnc(1, 1, true))."
  },
  {
   "property": "C105",
   "status": "partial",
   "theorems": [
    "C105_solutions",
    "C105_contracts",
    "C105_returns",
    "C105_stateless",
    "C105_reset_refuted",
    "C105_external_refuted",
    "C105_exception"
   ],
   "note": "CtcCN on a vector of variables: solutions kept for any history and interruption (C105_solutions), box only contracted, references restored (C105_contracts), the call returns when the variables are the box and its components (C105_returns), result independent of the history in a closed network (C105_stateless). Not true of contract({v,x}) called twice without reset_interm_vars (C105_reset_refuted), nor for domains that are neither variables nor intermediate variables: they stay contracted from one call to the next (C105_external_refuted). An exception leaves the variables referring to the box of the user (C105_exception)."
  },
  {
   "property": "C106",
   "status": "partial",
   "theorems": [
    "C106_tube",
    "C106_vector",
    "C106_as_partial",
    "C106_as_empty",
    "C106_as_refuted",
    "C106_traj_partial",
    "C106_traj_refuted",
    "C106_traj_novar",
    "C106_traj_error"
   ],
   "note": "Tube(tdomain, dt, f): C106_tube (contains f, widths of the slices, exact values); TubeVector(tdomain, dt, f): C106_vector. Tube(x, f): proved if x contains a trajectory (C106_as_partial); if x is empty at one instant the result is empty everywhere although f does not depend on x (C106_as_empty, C106_as_refuted). Trajectories: exact at the sample times of the first component (C106_traj_partial, C106_traj_error when the evaluation is not exact), the sample times of the others are ignored (C106_traj_refuted); with a function of the time only an assertion always fails (C106_traj_novar)."
  },
  {
   "property": "C107",
   "status": "partial",
   "theorems": [
    "C107_vectors",
    "C107_assign",
    "C107_inter",
    "C107_union",
    "C107_box",
    "C107_traj",
    "C107_neg",
    "C107_traj_sub",
    "C107_products",
    "C107_quotients",
    "C107_abs",
    "C107_uniform",
    "C107_scalar",
    "C107_own",
    "C107_own_partial",
    "C107_own_refuted",
    "C107_jscalar",
    "C107_jown_partial",
    "C107_jown_refuted"
   ],
   "note": "Operators on two vectors, boxes and trajectories: proved (C107_vectors, C107_assign also with the vector itself, C107_inter, C107_union, C107_box, C107_traj, C107_neg, C107_traj_sub, C107_products, C107_quotients, C107_abs, C107_uniform). Assignment operators with a tube or a trajectory: proved for an operand that is not in the vector (C107_scalar, C107_jscalar). For v op= v[j] only the components up to j are right, the next ones are combined with the updated v[j] (C107_own, C107_own_partial, C107_jown_partial): v -= v[0] is wrong (C107_own_refuted, C107_jown_refuted)."
  },
  {
   "property": "C108",
   "status": "partial",
   "theorems": [
    "C108_slice",
    "C108_twice",
    "C108_slices_partial",
    "C108_slices_refuted"
   ],
   "note": "Right on the slice itself (C108_slice). Applied to each slice of a tube, every inner gate gets the operation twice (C108_twice): right for idempotent operations such as &= and for tubes of one slice (C108_slices_partial), wrong for += on two slices (C108_slices_refuted)."
  },
  {
   "property": "C109",
   "status": "partial",
   "theorems": [
    "C109_union",
    "C109_derivative",
    "C109_search",
    "C109_empty_partial",
    "C109_empty_refuted",
    "C109_slicing_refuted",
    "C109_null_refuted"
   ],
   "note": "Proved when the components share their slicing: nothing is lost and the result is inside the search domain, single instants included (C109_union), also with the derivative (C109_derivative); empty and out-of-domain search domains (C109_search). Empty when each slice has a component with a non-empty codomain outside y (C109_empty_partial); an empty codomain is found everywhere (C109_empty_refuted). Nothing checks that the slicings agree: solutions are lost (C109_slicing_refuted) or a null pointer is dereferenced (C109_null_refuted)."
  },
  {
   "property": "C110",
   "status": "partial",
   "theorems": [
    "C110_programs",
    "C110_no_leak",
    "C110_separate",
    "C110_vector",
    "C110_self_assign",
    "C110_self_assign_refuted",
    "C110_default_source",
    "C110_default_source_refuted",
    "C110_vector_self",
    "C110_vector_self_refuted"
   ],
   "note": "Sequences of calls run without invalid access or double delete and the memory holds exactly the tubes of the list model (C110_programs, C110_separate), nothing is left once all are destroyed (C110_no_leak), vectors (C110_vector). This excludes self-assignment, which reads deleted slices (C110_self_assign, C110_self_assign_refuted), the assignment of a default tube, which leaves a dangling pointer deleted again by the destructor (C110_default_source, C110_default_source_refuted), and v = v on vectors, which loses the values (C110_vector_self, C110_vector_self_refuted). Synthesis trees are the subject of C111."
  },
  {
   "property": "C111",
   "status": "partial",
   "theorems": [
    "C111_programs",
    "C111_queries",
    "C111_no_leak",
    "C111_assign",
    "C111_remove",
    "C111_merge",
    "C111_truncate",
    "C111_lost_tree",
    "C111_lost_polynomial",
    "C111_assign_refuted",
    "C111_remove_refuted",
    "C111_merge_refuted",
    "C111_truncate_refuted",
    "C111_synthesis_refuted"
   ],
   "note": "Proved for the sequences where a tube with a tree is not assigned, merged or truncated, and where tree and polynomial are not enabled one after the other (C111_programs, C111_queries, C111_no_leak). The excluded calls go wrong: operator= and truncate_tdomain delete the slices before the tree whose destructor writes in them (C111_assign, C111_truncate and refutations), remove_gate and merge_similar_slices leave a leaf on a deleted slice, written by the destructor of the tube (C111_remove, C111_merge and refutations), and changing the mode from tree to polynomial or back leaks the former object (C111_lost_tree, C111_lost_polynomial, C111_synthesis_refuted)."
  },
  {
   "property": "C112",
   "status": "proved",
   "theorems": [
    "C112_keeps",
    "C112_smallest",
    "C112_precision",
    "C112_ends",
    "C112_hull_refuted"
   ],
   "note": "C112_keeps (sound, contracting), C112_smallest (exactly the hull of the points and the undecided boxes), C112_precision (distance epsilon when the undecided boxes meet the set), C112_ends. Without that condition the result can be far from the hull (C112_hull_refuted: a sound separator of the empty set that decides nothing)."
  },
  {
   "property": "C113",
   "status": "proved",
   "theorems": [
    "C113_union",
    "C113_away",
    "C113_missing",
    "C113_bbox_refuted"
   ],
   "note": "C113_union under the bounding boxes of the statement, C113_away, C113_missing for fewer boxes than separators, C113_bbox_refuted for a box that is too small."
  },
  {
   "property": "C114",
   "status": "partial",
   "theorems": [
    "C114_volume",
    "C114_volume_infinite",
    "C114_volume_monotone",
    "C114_volume_sample",
    "C114_volume_gate_refuted",
    "C114_wider",
    "C114_largest",
    "C114_max_diam",
    "C114_gate",
    "C114_gate_trajectories",
    "C114_steepest",
    "C114_vector_steepest",
    "C114_vector_volume",
    "C114_vector_gate",
    "C114_vector_gate_refuted",
    "C114_index",
    "C114_overlaps",
    "C114_overlaps_full",
    "C114_overlaps_refuted"
   ],
   "note": "Volume: C114_volume, C114_volume_infinite, C114_volume_monotone, C114_volume_sample, C114_volume_gate_refuted (same volume after the contraction of a gate, as stated). C114_max_diam, C114_largest, C114_wider, C114_steepest, C114_gate, C114_gate_trajectories, C114_index. Vectors: C114_vector_volume, C114_vector_steepest, C114_vector_gate; the instant of the widest gate of a vector is not written when no gate has a positive width (C114_vector_gate_refuted). Overlaps: C114_overlaps; the converse for ratio 1 holds when the gates of the intersection are not empty (C114_overlaps_full) and is false otherwise (C114_overlaps_refuted: codomains meet, a gate does not)."
  },
  {
   "property": "C115",
   "status": "partial",
   "theorems": [
    "C115_diam",
    "C115_distance",
    "C115_unbounded",
    "C115_diag",
    "C115_diam_v",
    "C115_diam_v_refuted",
    "C115_gap_refuted"
   ],
   "note": "diam(): C115_diam, C115_distance, C115_unbounded (no trajectory of thicknesses); in a gap the interpolated thickness can be too small (C115_gap_refuted, excluded in the statement). diag(): C115_diag. diam(v) is wrong: its instants are the values of the vertices of the polygons (C115_diam_v), so that it can be undefined on the whole domain of the tube (C115_diam_v_refuted)."
  },
  {
   "property": "C116",
   "status": "partial",
   "theorems": [
    "C116_slice",
    "C116_tube",
    "C116_vector",
    "C116_quiet",
    "C116_slice_infinite",
    "C116_unbounded_refuted",
    "C116_vector_unbounded_refuted",
    "C116_degenerate_refuted"
   ],
   "note": "Finite domains: C116_slice, C116_tube, C116_vector, C116_quiet, C116_slice_infinite. The last sentence is false: one unbounded slice hides the contractions of the other slices (C116_unbounded_refuted) and of the other components of a vector (C116_vector_unbounded_refuted); a gate that was a single value and is emptied is not noticed (C116_degenerate_refuted)."
  },
  {
   "property": "C117",
   "status": "proved",
   "theorems": [
    "C117_fixed_point",
    "C117_default_ratio_refuted"
   ],
   "note": "C117_fixed_point for the ratio 0, C117_default_ratio_refuted for the default ratio (the failure is part of the statement). Each domain has its own content: boxes with components and slices of tubes of the network are not covered; the ordered mode neither."
  },
  {
   "property": "C118",
   "status": "partial",
   "theorems": [
    "C118_contains_partial",
    "C118_contains_refuted",
    "C118_cross",
    "C118_dist",
    "C118_aligned_refuted",
    "C118_contact",
    "C118_contact_refuted"
   ],
   "note": "contains is right on the line of the wall only (C118_contains_partial, C118_contains_refuted); the intersection is C118_cross; the distance is the one of the first wall that is not aligned with the ray (C118_dist), aligned walls are not seen (C118_aligned_refuted); the contact is the best of the bearings 0, 0.1, 0.2, ... (C118_contact), a small close wall can be missed (C118_contact_refuted) and the bearing is then indeterminate. Exact arithmetic."
  },
  {
   "property": "C119",
   "status": "proved",
   "theorems": [
    "C119_expr_partial",
    "C119_scalar",
    "C119_scalar_refuted",
    "C119_component_refuted",
    "C119_ibex_refuted",
    "trimmed_unique"
   ],
   "note": "C119_expr_partial is the case of an expression with parentheses (trimmed_unique: the result is determined); the failures, part of the statement, are C119_scalar, C119_scalar_refuted, C119_component_refuted, C119_ibex_refuted."
  },
  {
   "property": "C120",
   "status": "proved",
   "theorems": [
    "C120_replace_all",
    "C120_unique",
    "C120_empty_search_refuted"
   ],
   "note": "C120_replace_all with the relation replaced, which has one result only (C120_unique); C120_empty_search_refuted: no number of iterations is enough."
  },
  {
   "property": "C121",
   "status": "proved",
   "theorems": [
    "C121_random",
    "C121_draw"
   ],
   "note": "C121_random for any sequence of draws, C121_draw for the value of a draw. Exact arithmetic: with doubles the sum t+timestep is rounded and the last sample can be drawn twice."
  },
  {
   "property": "C122",
   "status": "partial",
   "theorems": [
    "C122_contracts",
    "C122_outer",
    "C122_inner",
    "C122_outer_range",
    "C122_complementary_partial",
    "C122_landmark_refuted"
   ],
   "note": "C122_contracts, C122_outer, C122_inner, C122_complementary_partial for the poses that are not at the landmark, with M_PI equal to pi; C122_outer_range for any M_PI. At the landmark both boxes can lose the pose (C122_landmark_refuted, with an instance where atan2(0,0) is empty). The error due to the double M_PI in the modulo is not quantified."
  },
  {
   "property": "C123",
   "status": "proved",
   "theorems": [
    "C123_round_trip",
    "C123_hsv2rgb"
   ],
   "note": "C123_round_trip (both cases) and C123_hsv2rgb. Exact arithmetic instead of float."
  },
  {
   "property": "C124",
   "status": "proved",
   "theorems": [
    "C124_color",
    "C124_ends",
    "C124_rgb",
    "C124_hue",
    "C124_hue_refuted"
   ],
   "note": "C124_color, C124_ends for both modes, C124_rgb, C124_hue; the failure, part of the statement, is C124_hue_refuted (from 350 to 10 degrees). Exact arithmetic; NaN ratios are not modelled."
  },
  {
   "property": "C125",
   "status": "proved",
   "theorems": [
    "C125_put",
    "C125_entries",
    "C125_rgb",
    "C125_hsv_refuted",
    "C125_opacity"
   ],
   "note": "C125_put, C125_entries, C125_rgb, C125_opacity; the failure in HSV mode, part of the statement, is C125_hsv_refuted (hues 330 and 30). Exact arithmetic."
  }
 ]
}