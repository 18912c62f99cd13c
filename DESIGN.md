# Formal model of codac: design

Source: `/repo` (codac-team/codac at the pinned commit), read as text only.  Nothing
there is built or executed; the model is a hand translation into Gallina and every
definition cites the file and lines it models.

## 1. Trusted base

* Coq 8.16.1 kernel (and `coqc` for the build).
* Axioms: only those of the Coq standard library, reached through the classical real
  numbers.  Each property theorem is followed by `Print Assumptions`; see section 5 for
  the list per file.
* The hand translation itself.  Section 4 says what is *not* modelled.
* IBEX (interval library) is an external dependency that is not in `/repo`.  Its set
  operations (`&`, `|`, `is_subset`, `contains`, `intersects`, ...) are modelled exactly;
  its arithmetic is a record of operations constrained only by inclusion (any outward
  rounding is allowed), over which theorems quantify; an exact instance is constructed so
  that the record is known to be inhabited.

## 2. Numbers

* Interval bounds, instants and trajectory values are real numbers (`R`), bounds may be
  infinite.  Doubles are real numbers, so set operations on intervals (which never round)
  are exact in the model.  Where the code computes an instant in double precision
  (`lb()+dt`, `diam()`, `mid()`), the model uses the exact real value; this is said in
  the comment of the definition.
* Trajectories are functions `R -> R`.
* Discrete parts (serialization, contractor network queue, hash codes, pavings, symmetric
  actions) use `Z`, `nat` and lists and are executable.

## 3. Plan per property

| id | what is modelled | how it is proved |
|----|------------------|------------------|
| C01 | list of slices with both gates stored per slice (sharing = value equality after each op) | invariant by induction over operation lists |
| C02 | `Tube::sample` | equivalence of the enclosure predicate |
| C03 | `remove_gate`, `merge_slices` | inclusion of the enclosure predicate |
| C04 | `Slice::operator()`, `Tube::operator()` | induction over slices |
| C05 | `Slice::eval`, `Tube::eval` | induction over slices |
| C06 | the four `Tube::invert` | induction; refutation for single-instant search domains |
| C07 | `Tube::set` overloads | case analysis |
| C08 | macro of tube arithmetic, resampling | inclusion, uses C02 |
| C09 | `&=`, `\|=` | case analysis per slice |
| C10 | `Slice::contains` bisection loop with fuel, `Tube::contains` | invariant on the work list |
| C11 | comparisons | order laws |
| C12 | `Tube::integral` (no tree) | Riemann integral bounds on each slice |
| C13 | `TubeTreeSynthesis` as a cached binary tree, state machine of queries and writes | invariant "flag clear implies cache exact" over all histories |
| C14 | `update_integrals`, `request_integrals_update` | expected refutation (the refresh is guarded by the flag of the values) |
| C15 | `partial_integral` of the tree | expected refutation for a bound equal to zero |
| C16 | `truncate_tdomain` | expected refutation when a bound is inside a slice; restricted theorem on gates |
| C17 | `shift_tdomain` | direct |
| C18 | `inflate` | direct |
| C19 | `CtcDeriv` | mean value theorem on each slice, induction on slices in both directions |
| C20 | `CtcEval` with derivative | per-instant argument, uses C06, C19 |
| C21 | `CtcEval` without derivative | expected refutation with two disjoint windows |
| C22 | `CtcDelay` | per-slice argument |
| C23 | `CtcStatic`, `CtcFunction` on slices | per-slice argument, any sound contractor |
| C24 | `CtcUnion`, `CtcCartProd`, `CtcBox`, `CtcConstell` | induction on lists |
| C25 | `CtcDist` | inclusion-correct arithmetic |
| C26 | `Catan2` and `CtcPolar::contract` | expected refutation at the origin |
| C27 | `CtcTransform::contract` | expected refutation |
| C28, C29 | network: domains as a state vector, contractors as monotone sound functions, queue | induction on arbitrary schedules |
| C30 | queue with `m_active` flags | invariant on all interleavings |
| C31 | ratio test on volumes | expected refutation (unbounded volume is coded by a constant) |
| C32 | `ContractorHashcode::operator<` | order laws, refutation of transitivity of equivalence |
| C33 | `Domain::add_data` | expected refutation |
| C34 | `Trajectory::operator()` | sorted sample list |
| C35 | `set`, constructors | invariant; expected refutation for the list constructor |
| C36 | `operator==` | expected refutation of symmetry |
| C37 | `primitive`, `finite_diff` | ring / field |
| C38, C39 | byte streams | round trip by induction; expected refutation for inconsistent tubes |
| C40, C41 | SIVIA loop | invariant on the queue; measure for termination |
| C42 | BFS on the leaves | invariant; expected refutation for copies |
| C43 | `get_boxes` | structural induction; refutation with inner values |
| C44 | sweep on sorted bounds | counting argument |
| C45 | `SepBox`, `SepTransform` | case analysis |
| C46 | constructors with explicit uninitialised fields | refutation |
| C47 | `ConvexPolygon::contains` in rationals | refutation by computation |
| C48 | comparator | refutation |
| C49, C50 | `TDomain` | invariant; refutation for `all_gates_defined` |
| C51 | codac2 `Slice::set`, `Tube::set` | refutation for disjoint values |
| C52 | signed permutations | induction / list lemmas |
| C53 | `boxes_list` | refutation, and inclusion of the expected leaves |
| C54 | decision of one leaf | refutation for thin tubes, restricted theorem |
| C55 | thick intervals | direct, refutation for `is_disjoint` |
| C56 | constructors of `Tube` from one or two trajectories | enclosure of what lies between, per slice |
| C57 | constructor from lists of domains | equivalence with membership in each box |
| C58 | `TubeTreeSynthesis::eval` | invariant of C13, bounds of the current slices |
| C59 | `traj_arithmetic_scalar.cpp` | values at every instant of the common domain |
| C60 | ownership of `m_function` in `Trajectory` (heap of addresses) | invariant on all operation sequences; refutation for self-assignment |
| C61 | `sample`, `truncate_tdomain`, `shift_tdomain` of trajectories | values before/after |
| C62 | `Domain::add_data` | per slice; refutation where data are lost |
| C63 | `SIVIAPaving::compute` (three overloads) | structural induction, measure for termination, refutation for partial functions |
| C64 | `SepFixPoint` | invariant of the loop |
| C65 | `ThickEdge::operator&` | inclusion-correct arithmetic |
| C66 | `GrahamScan` | stack invariant; order of the points around the pivot |
| C67 | codac2 `TubeEvaluation::operator=` | per slice after `sample` |
| C68 | codac2 `Tube::eval`, `operator()`, `codomain` | per slice |
| C69 | codac2 `operator&=` | case analysis |
| C70-C72 | codac2 boxes: tests, set operations, extremal components, bisection, difference, complementary | list induction, contract for `Interval::diff` |
| C73 | codac2 `PavingNode` | invariant of all bisection histories |
| C74 | three-valued logic | exhaustive cases against two-bound sets |
| C75-C77 | `ThickPaving`, `PNode` | structural induction; refutations for a constructor and for loading files |
| C78 | `ThickDisk` and functions | monotonicity on each component |
| C79 | `CtcPicard` | continuation argument on each slice (no assumption that solutions exist) |
| C80 | `TubePaving` | cases of the four verdicts, refutations |
| C81 | `CtcLinobs`, `CtcChain` | variation of constants proved in Coq; polygons by contract (proved in C82-C85) |
| C82-C85 | `ConvexPolygon`, `polygon_arithmetic` | convexity lemmas, exact sets |
| C86, C87 | codac2 `contains`, both `contains` with floating-point instants (any rounding) | work-list invariant, Flocq generic formats |
| C88-C90 | `SepProj` | invariants of the nested loops |
| C91-C93 | `PSetNode`, `SepPaving` | closed sets, boundary argument; refutations |
| C94 | `CtcLohner` | Taylor-Lagrange remainder, coordinates changes, refutations by rational evaluation |
| C95 | `SepPolarXY` | polar coordinates, exact PI against the double M_PI |
| C96, C97 | `PdcInPolygon`, `SepPolygon` | winding number from continuous angles (Winding.v) |
| C98 | `CtcFunction` on tubes | reduction to C23 with a shared slicing, refutation otherwise |
| C99 | `TubePolynomialSynthesis` | convexity; refutation with exact least squares |
| C100 | `ConnectedSubset_degree.cpp` | continuous angle along the boundary of a tiling (DegTurn.v, DegTile.v), refutation with IN leaves |
| C101 | CtcLinobs of codac2 on tubes of polygons, Slice<ConvexPolygon>::set/is_empty/gates | Invariant over the two loops; variation of constants; counter-examples with a rotation and a chain of integrators |
| C102 | Matrix*TrajectoryVector with its common sampling, vecto_product, TrajectoryVector::set and operator() | Affine between the samples of the first component; counter-examples by computation |
| C103 | to_codac1 and to_codac2 on Tube<Interval>: the two loops of set(), the samplings with gates, the loop of Slice::set | Invariants of the two loops in terms of the values just before and just after an instant |
| C104 | TFunction::eval_vector and TFnc::eval_vector on vectors of tubes, TubeVector::resize, DelayTFunction | The loops on all components compute the slice by slice map of TubeOps.v on each one; then enclosure slice by slice |
| C105 | ContractorNetwork::contract(var_dom), reset_interm_vars, replace_var_by_dom, Domain::set_ref_values and reset_value, CtcCN::contract | Invariant of the queue carried through the replacement of references; simulation between two networks whose references differ for C105_stateless |
| C106 | Constructors of Tube and TubeVector from a TFnc, TFunction::traj_eval_vector | C104 on copies of the tube with the slicing; the samples of the trajectory are those of the successive calls of set |
| C107 | Operators of TubeVector (codac_tube_arithmetic_vector.cpp, codac_TubeVector_operators.cpp), TrajectoryVector::op=(Trajectory) | Scalar theorems of C08, C09 and C59 component by component; invariant of the loop for an operand that is a component of the vector |
| C108 | Assignment operators of Slice applied inside a tube | Number of writes to each shared gate, by induction on the slices already visited |
| C109 | TubeVector::invert returning one interval (codac_TubeVector.cpp 420-507) | Both loops stop at the first non-empty row of slices; rows before and after the instant give points on both sides of it, the hull contains it |
| C110 | Pointers between slices and gates: Slice, ~Slice, chain_slices, merge_slices, setters; Tube constructors, operator=, ~Tube, sample, remove_gate; TubeVector::operator= | Representation predicate from memory to lists, doubly linked segments; each call changes the structure of one object only, frees what it drops, allocates fresh objects |
| C111 | Tube::enable_synthesis, create/delete of the syntheses, operator=, ~Tube, sample, remove_gate, merge_similar_slices, truncate_tdomain; ~TubeTreeSynthesis; notifications of the setters of Slice | Invariant on top of C110: leaves of a tree = slices of its tube, references back, one owner per object; freed slices still referred to by a leaf make the destructor fail |
| C112 | `CtcHull::contract` of the unsupported part (SepHull.v) | `C112_keeps` / `C112_smallest`: invariant of the list of boxes (points of the set are in the list or in the hull already found; every point found comes from the set or from an undecided box); `C112_precision` by growing the hull of epsilon; `C112_ends` with the weights of PropsSiviaTerm.v; `C112_hull_refuted` |
| C113 | `SepUnionBbox::separate` (SepHull.v) | `C113_union` by induction on the list of separators, for separators of PropsSivia.v; `C113_away`, `C113_missing`; `C113_bbox_refuted` |
| C114 | `Slice::volume`, `Tube::volume`, `wider_slice`, `largest_slice`, `steepest_slice`, `max_diam`, `max_gate_diam`, `index`, `overlaps`, the vector versions (Measure.v) | `C114_volume`: the extreme trajectories follow the bounds of the codomains inside the slices; `C114_volume_monotone` and `C114_volume_sample` follow from this extremal description; first maximum of the loops (`first_max`); `C114_overlaps` via `C09_inter`; refutations with one or two slices |
| C115 | `Tube::diam(gates)`, `Tube::diam(v)`, `TubeVector::diag` (Measure.v) on the trajectories of Trajectory.v | `C115_diam` from the list of samples (calls of set() with increasing instants) and `C34_eval`; `C115_distance`; `C115_diag`; `C115_diam_v` gives the instants of diam(v), refuted by `C115_diam_v_refuted`; `C115_gap_refuted` |
| C116 | `Domain::compute_volume` for slices, tubes and tube vectors (DomVolume.v), the test `shrunk` of CN.v | the volumes are weighted sums of widths of the parts (`slice_ws`, `tube_ws`, `vec_ws`); a strict inclusion of one bounded part makes the sum strictly smaller (`ws_le`); refutations with an unbounded slice and with a degenerate gate |
| C117 | networks of `DI`/`DT`/`DV` contents (DomVolume.v) on the state machine of CN.v | invariant "each known contractor is waiting or changes nothing" for any domain type whose strict contractions are noticed (`fixed_point`), instantiated with C116 and `shrunk_strict`; refutation by a run of two contractors with the ratio 0.0001 |
| C118 | `Wall`, `shorter_dist_to_walls`, `shorter_contact_to_walls` (Wall.v) | the crossing point solves a linear system of determinant non zero (`cross_spec`, `det_unique`); minimum by induction over the walls and over the bearings; refutations with an aligned wall and with a wall between two bearings (bounds of the sine) |
| C119 | `TFunction::expr(int)`, `operator[]`, `Tools::trim`, `getline` (TFunExpr.v) | tokens of a joined list by induction over the components, uniqueness of the trimmed text; failures by computation |
| C120 | `Tools::replace_all` (TFunExpr.v) | relation `replaced` (cut at the first occurrence), induction over the length of the rest; the result is unique |
| C121 | `RandTrajectory`, `Tools::rand_in_bounds` (RandTraj.v) | loop invariant on the samples after j draws (`filled`), then the facts of TrajFacts.v on sampled trajectories |
| C122 | `SepPolarXYT` (SepPolarXYT.v) | the operations of IBEX by contract (`elem_ok`, `angles_ok`); each pose has a polar form and a bearing in the turn that starts at the limit; refutation with an instance of the contracts |
| C123 | `rgb2hsv`, `hsv2rgb` (ColorMap.v) | the hue gives the largest and the smallest channels and the place of the third one (`hue`), case by case |
| C124 | `ColorMap::color` (ColorMap.v) | induction over the entries of the map (`picks`); mixes of numbers of [0,1] stay in [0,1]; refutation by a mix of two hues |
| C125 | `ColorMap::reverse`, `set_opacity`, `is_opaque` (ColorRev.v) | the reversed map is the reversed list of the flipped entries; the color of an index is determined by the entries around it; refutation by the hues 330 and 30 |

## 4. What is modelled, what is not

Rounding is exact unless stated; fuel parameters bound loops and theorems hold for every
fuel for which the run ends (termination is a separate property when it is claimed).

| model files | source | simplifications |
|---|---|---|
| Itv, Arith | ibex::Interval as wrapped by codac_Interval.h | set operations exact; arithmetic is a record of inclusion-correct operations (`iarith`), exact instance given |
| Tube, TubeOps | codac_Slice.cpp, codac_Tube.cpp, codac_Tube_operators.cpp, codac_tube_arithmetic_scalar.cpp | a tube is the list of its slices, both gates stored in each; exact instants; no synthesis in these files |
| CtcDeriv | codac_CtcDeriv.cpp, codac_Slice_polygon.cpp | polygons of slices as the four bounding lines |
| CtcEval | codac_CtcEval.cpp and the derivative-aware evaluations | `pint` = value of the polygon of a slice over an interval of time, by contract |
| CtcDelay, CtcFunction | codac_CtcDelay.cpp, codac_CtcStatic.cpp, codac_CtcFunction.cpp (tubes) | static contractor by contract; the tubes are distinct objects; dimension assertions not modelled |
| Static | CtcUnion, CtcCartProd, CtcBox, CtcConstell, CtcDist, CtcSegment, CtcPolar, CtcTransform | IBEX elementary functions by contract, exact PI in CtcPolar |
| CN, Hash | codac_ContractorNetwork*.cpp, codac_Contractor.cpp, codac_Hashcode.cpp | time limit, volumes and heap not modelled; std::map by the contract of an ordered container with the comparison of the code |
| Integral, Tree | Tube::integral and partial_integral, codac_TubeTreeSynthesis | exact products and sums; the tree is a value whose leaves are the slices |
| Trajectory, TrajMem | codac_Trajectory*.cpp, codac_traj_arithmetic_scalar.cpp | exact reals; std::map as sorted list; `None` = failed assertion or undefined behaviour; addresses never reused |
| AddData | Domain::add_data | bounded data, no tree, no trigger of contractors |
| Double, Serialize | codac_serialize_*.cpp | little-endian sizes; Flocq binary64; NaN not written; reading past the end is `Undef` |
| Sivia | codac_sivia.cpp | display not modelled; difference and bisector by contract |
| Paving, Degree | codac_Paving.cpp, codac_Set, codac_SIVIAPaving.cpp, codac_ConnectedSubset*.cpp | nodes have addresses, flags are a map, fuel for loops; Degree: assertions enabled (`None`), bounded pavings, non_singular_jacobian is a parameter |
| Separators | QInterProjF, SepBox, SepTransform, SepCtcPairProj, SepFixPoint | std::sort as insertion sort; extended doubles without NaN; fuel |
| SepProj | codac_SepProj.cpp | difference, middle, bisector and separator by contract; fuel; memory not modelled |
| SepPolar, InPolygon | codac_SepPolarXY.cpp, codac_PdcInPolygon.cpp, codac_SepPolygon.cpp | M_PI is a parameter; atan2 by contract; SepBoundaryCtc of IBEX from its documentation |
| Geometry, PolyArith, PolySimp | codac_ThickPoint, ThickEdge, GrahamScan, ConvexPolygon, polygon_arithmetic | operations by contract, exact instance (division by [0,0] is empty); unbounded thick points give no vertex; messages not modelled |
| Codac2, Codac2Contains, Codac2Box, Octa | src/core/2: TDomain, TSlice, Slice, Tube, TubeEvaluation, IntervalMatrix, IntervalVector, Paving, Action, CtcAction | one tube per TDomain; iterators as zippers; exact instants; template ratio not modelled |
| ContainsFloat | bisections of Slice::contains (codac and codac2) | any rounding mode, exponent unbounded above |
| Thick, ThickPav, ThickDisk | src/unsupported thick sets | exact arithmetic; nodes as values; files as items instead of bytes |
| TPlane, TubePaving | codac_TPlane.cpp, codac_TubePaving.cpp | nodes as values; shared slicing; no synthesis tree; fuel |
| Picard, Lohner | codac_CtcPicard.cpp, codac_CtcLohner.cpp | IBEX functions by inclusion contract; QR and real inverse by contract; fuel |
| Linobs | codac_CtcLinobs.cpp, codac_CtcChain.cpp | matrix exponential of Eigen exact (`is_expo`); polygons by `poly_ok` |
| PSet | codac_PSetNode_impl.cpp, codac_SepPaving.cpp | nodes as values, queue as recursion, fuel, memory not modelled |
| PolySynth | codac_TubePolynomialSynthesis | exact doubles; Eigen fit and IBEX bisection are parameters; figures not modelled |
| Linobs2.v | codac2_CtcLinobs.cpp, codac2_Slice.h | Operations of polygons by contract, exact exponential; one list of cells per tube, shared instants |
| TrajVec.v | codac_traj_arithmetic_vector.cpp, codac_TrajectoryVector.cpp | Exact reals; products of IBEX vectors and matrices exact; None for a failed assertion |
| Convert.v | codac2_Tube.cpp 20-30, 56-66 | Tube<Interval> only; exact reals; None for a failed assertion |
| TFun.v | codac_TFunction.cpp 324-419, codac_TFnc.cpp 66-119, codac_DelayTFunction.cpp, codac_TubeVector.cpp 216-240 | The evaluation of expressions (IBEX Function) is a function on boxes, hypothesis: it encloses f; None for a null pointer or a failed assertion |
| CNVar.v | codac_ContractorNetwork_solve.cpp 79-97, 182-213, 238-253, 300-367, codac_Domain.cpp 340-391, 484-502, 611-642, codac_CtcCN.cpp | Intervals and interval vectors; a domain is the number of its memory cell; the branch adding a vector to the graph (305-331) is not modelled; no network inside the network |
| TFunCons.v | codac_Tube.cpp 82-93, 127-136, codac_TubeVector.cpp 67-77, codac_TFunction.cpp 426-453 | Evaluation of expressions as in TFun.v; exact reals; None for a failed assertion |
| TubeVecOps.v | codac_tube_arithmetic_vector.cpp, codac_TubeVector_operators.cpp, codac_TrajectoryVector_operators.cpp, codac_Slice_operators.cpp 20-26 | Trajectories met by tubes are interval evaluations (assertion on their temporal domain left out); the operations on intervals are parameters with an enclosure contract; forms of the Slice operators with a slice or a trajectory left out |
| VecInvert.v | codac_TubeVector.cpp 420-507 | Pointers to slices are lists of the slices that remain, None for a null pointer or a failed assertion; the polygon intersection of Slice::invert(y, v, search) is a parameter with the contract pint_ok |
| HeapTube.v | codac_Slice.cpp 24-68, 443-518, 561-607; codac_Tube.cpp 33-42, 122-125, 169-245, 338-387, 525-564, 594-604; codac_TubeVector.cpp 187-201 | Two maps from addresses to slices and gates, addresses never reused; no synthesis tree; the cached m_tdomain is left out; loops bounded by a parameter, with a separate outcome when the bound is reached |
| HeapTree.v | codac_Tube.cpp 169-245, 319-416, 525-619, 1248-1278, 1506-1530, 1600-1639; codac_TubeTreeSynthesis.cpp 18-80, 226-297; codac_Slice.cpp 443-518 | A tree is one object with its shape (Tree.v) and the pointers of its leaves; memorised values left out; the flag that stops request_integrals_update is left out; the leaves are destroyed in one pass |
| SepHull.v | `src/unsupported/separators/codac_CtcHull.cpp`, `codac_SepUnionBbox.cpp` | The loop of CtcHull has fuel (`HMore` when it is used up, `C112_ends` shows that it is not for a large fuel). IBEX's `diff`, the bisector and the separator are parameters with the contracts `pdiff_lim`, `pbis`, `bis_ok`, `zsep`, `sep_ok`; concrete instances are given in the examples. A bounding box that is missing gives `None`. |
| Measure.v | codac_Slice.cpp 122-142; codac_Tube.cpp 423-483, 512-523, 628-638, 911-999, 1136-1150; codac_TubeVector.cpp 333-339, 583-668 | Widths are reals or infinite (`None`); exact arithmetic; the doubles next to a bound are parameters `nf` and `pf`; slices compared by a key for index() |
| DomVolume.v | `src/core/cn/codac_Domain.cpp` 504-574 | Exact arithmetic; number plus infinity is infinity; the widths of Measure.v; contents of the domains of a network are disjoint, contractors are functions of the contents |
| Wall.v | `src/robotics/objects/codac_Wall.cpp` | Exact arithmetic; coordinates that are infinite or not a number are `None`; the indeterminate bearing is `None`; at most 100 bearings (M_PI <= 5) |
| TFunExpr.v | `src/core/functions/codac_TFunction.cpp` 24-40, 157-200, `src/core/tools/codac_Tools.cpp` 22-41 | Strings are lists of characters, C locale; the parser of IBEX is not modelled (the dimension of the image is a parameter); `None` for an exception, an assert or a loop that has not ended |
| RandTraj.v | `src/core/variables/trajectory/codac_RandTrajectory.cpp` 24-43, `src/core/tools/codac_Tools.cpp` 43-48 | Exact arithmetic; the draws are an arbitrary sequence; failed assertions are `None` |
| SepPolarXYT.v | `src/unsupported/geometry/codac_SepPolarXYT.cpp` 20-109 | Boxes are triples of intervals; operations of IBEX by contract; exact `double` operations on the bounds, `M_PI` a parameter |
| ColorMap.v | `src/core/graphics/codac_colors.cpp` 45-199, `src/core/graphics/codac_ColorMap.cpp` 66-115 | Exact arithmetic instead of `float`; the map is a list with increasing keys; failed assertions and a hue that is not a number are `None`; NaN ratios are not modelled |
| ColorRev.v | `src/core/graphics/codac_ColorMap.cpp` 33-64 | Exact arithmetic instead of `float`; the map is a list with increasing keys and insertion at the place of the key |

Not modelled at all: IBEX internals, Python bindings, graphics, command line output, memory
management other than what a property mentions, the parts of /repo that are in no row.
`assert` statements are preconditions of the corresponding operation, or outcomes (`None`,
`Undef`) when a property is about them.

## 5. Assumptions printed

`Print Assumptions` on every theorem of MANIFEST.json gives subsets of four axioms of the
standard library, reached through its real numbers and classical logic:

* F: `ClassicalDedekindReals.sig_forall_dec`
* N: `ClassicalDedekindReals.sig_not_dec`
* E: `FunctionalExtensionality.functional_extensionality_dep`
* C: `Classical_Prop.classic`

**F E** (455 theorems): C01_edits_keep_chain, C01_shift, C01_truncate, C02_sample_same_trajectories, C02_sample_gates, C02_sample_values, C02_sample_tube, C03_remove_gate, C03_merge_similar, C03_merge_one, C04_eval_instant, C04_eval_interval, C04_codomain, C04_outside, C04_eval_exact, C04_interval_least, C05_eval_bounds, C06_invert_instant_refuted, C06_invert_partial, C06_invert_point_partial, C06_invert_list, C06_invert_in_search, C06_invert_none, C07_set_instant, C07_set_instant_keeps, C07_set_interval, C07_set_all, C08_add, C08_sub, C08_mul, C08_neg, C08_unary, C08_binary, C08_assign, C08_binary_ok, C08_unary_ok, C09_inter, C09_union_l, C09_union_r, C09_inter_assign, C09_union_assign, C10_contains, C10_contains_terminates, C11_equality, C11_difference, C11_subset, C11_subset_trajectories, C11_superset_trajectories, C11_refl, C11_trans, C11_antisym, C11_subset_other_slicing_refuted, C12_integral, C12_between, C12_degenerate, C12_reversed_refuted, C13_slice, C13_time_to_index, C13_slice_at, C13_codomain, C13_eval, C13_invert_sound, C13_invert_refuted, C13_range_refuted, C14_partial, C14_refuted, C15_partial, C15_or_empty, C15_refuted, C16_truncate_refuted, C16_truncate_gates_partial, C16_truncate_ends_partial, C16_truncate_domain, C17_shift, C17_shift_back, C18_inflate, C19_no_loss_refuted, C19_contracts_refuted, C19_contracts_partial, C19_contracts_tame, C20_interval_refuted, C20_bound_refuted, C20_shrinks, C21_scalar_value_refuted, C21_vector_value_refuted, C21_scalar_instant, C21_scalar_value_partial, C21_vector_instant, C21_vector_value_partial, C21_shrinks, C22_no_loss, C22_contracts, C22_vector_no_loss, C23_no_loss, C23_contracts, C24_union, C24_union_contracts, C24_box, C24_box_contracts, C24_constell, C24_constell_contracts, C24_segment, C25_contracts, C27_refuted, C27_no_loss_partial, C27_contracts, C28_schedules, C28_no_loss, C29_domains_shrink, C30_queue, C30_returns, C30_waiting_partial, C30_drift_refuted, C30_subnetwork_refuted, C31_unbounded_refuted, C31_degenerate_refuted, C31_fixed_point_partial, C33_keeps, C33_partial, C33_refuted, C34_eval, C34_interval, C34_refuted, C35_partial, C35_refuted, C36_partial, C36_refuted, C37_finite_diff, C37_diff, C37_diff_refuted, C41_ctc, C41_sep, C42, C42_sivia, C42_dangling, C42_refuted, C43_sivia, C43_refuted, C44_keeps, C44_least, C44_ctc, C44_assert, C45_transform_partial, C45_refuted, C46_first, C46_refuted, C47_yes_refuted, C47_no_refuted, C48_partial, C48_refuted, C49, C49_sample, C49_new, C49_new_dt, C49_delete_gates_partial, C49_delete_gates_refuted, C49_no_gate_refuted, C50_partial, C50_refuted, C51_set_partial, C51_set_refuted, C51_assign_partial, C51_assign_refuted, C52, C52_ctc, C52_image, C52_action, C52_inverse_action, C52_refuted, C53_partial, C53_leaf_partial, C53_filter_partial, C53_leaves, C53_refuted, C53_dynamic_refuted, C54_loops_kept_partial, C54_fresh_partial, C54_cover, C54_in, C54_refuted, C54_unbounded_refuted, C55_subset, C55_intersects, C55_subset_complete, C55_intersects_complete, C55_disjoint_only, C55_disjoint_refuted, C55_disjoint_missed_refuted, C55_not_subset_partial, C55_not_subset_refuted, C55_superset, C55_subset_of, C55_inter_partial, C55_inter_refuted, C55_inside_partial, C55_inside_sure, C55_inside_refuted, C55_box_subset, C55_box_intersects, C55_box_not_subset_partial, C55_box_subset_t_refuted, C55_box_subset_t_never, C55_box_superset, C55_box_inter_partial, C55_box_inside_partial, C57_vectors, C58_partial, C58_refuted, C59_binary, C59_unary, C59_assign_partial, C59_function_partial, C59_function_refuted, C59_assign_refuted, C61_values, C60_partial, C60_refuted, C60_leak_refuted, C60_vector_refuted, C62_partial, C62_refuted, C62_around_refuted, C63_ends, C63_ctc, C63_sep, C63_fun, C65_intersection_partial, C65_parallel_yes, C65_intersection_refuted, C65_parallel_no_refuted, C66_hull, C66_turns, C66_ccw, C66_turns_refuted, C67_partial, C67_at, C67_refuted, C67_outside_refuted, C68_eval, C68_eval_itv, C68_codomain, C69, C70_empty, C70_subset, C70_contains, C70_intersects, C70_disjoint, C70_eq, C70_inter, C70_hull, C71_bisect, C72_diff, C72_complementary, C73_hull_box, C73_is_empty_partial, C75, C75_refine, C75_same, C75_union, C75_intersection, C75_constructor_or_refuted, C76_outside_partial, C76_inside_partial, C76_contracts, C76_contains_partial, C76_contains_least, C76_outside_refuted, C76_contains_refuted, C77_reunite, C77_change, C77_complement, C77_load_refuted, C78_disk_refuted, C78_set_params_refuted, C78_thinf, C78_thickf_partial, C78_translate_partial, C79_contracts, C79_all_slices, C79_intertemporal_refuted, C80_vector, C80_scalar_partial, C80_gate_refuted, C80_ends, C81_bound_refuted, C82_thick_partial, C82_thick_inside, C82_thick_refuted, C82_box, C82_add_partial, C82_add_exact_partial, C82_rounding_refuted, C82_neg, C82_neg_order, C82_sub_partial, C82_sub_exact_partial, C82_box_sub_partial, C82_mul_partial, C82_mul_exact, C82_union, C82_box_union, C82_default, C82_center, C83_degenerate_edge, C83_point_refuted, C84_encloses, C84_convex, C84_limit, C84_small, C84_size_partial, C84_size_refuted, C84_least_partial, C84_least_refuted, C85_edge_partial, C85_edge_refuted, C86, C86_answers, C86_gate_refuted, C91_return, C91_eps, C94_contracts, C94_round_refuted, C94_zero_refuted, C97_contracts, C98_static, C98_no_loss_partial, C98_contracts_partial, C98_no_loss_refuted, C98_null_refuted, C99_partial, C99_refuted, C99_constant_refuted, C99_single_abort, C100_refuted, C101_gates_shrink, C101_gates_refuted, C102_matrix_partial, C102_matrix_nonsquare, C102_matrix_refuted, C102_vecto_partial, C102_vecto_left_partial, C102_vecto_refuted, C103_to1, C103_to1_traj, C103_unbounded_refuted, C104_function_partial, C104_values, C104_fnc, C104_delay, C104_delay_values, C104_empty, C104_null_refuted, C104_slicing_refuted, C105_solutions, C105_contracts, C105_returns, C105_stateless, C105_reset_refuted, C105_external_refuted, C105_exception, C106_as_partial, C106_as_empty, C106_as_refuted, C106_traj_partial, C106_traj_refuted, C106_traj_novar, C106_traj_error, C107_vectors, C107_assign, C107_inter, C107_union, C107_box, C107_traj, C107_neg, C107_traj_sub, C107_products, C107_quotients, C107_abs, C107_uniform, C107_scalar, C107_own, C107_own_partial, C107_own_refuted, C107_jscalar, C107_jown_partial, C107_jown_refuted, C108_slice, C108_twice, C108_slices_partial, C108_slices_refuted, C109_union, C109_search, C109_empty_partial, C109_empty_refuted, C109_slicing_refuted, C109_null_refuted, C110_self_assign, C110_default_source, C110_vector_self, C111_queries, C111_assign, C111_truncate, C111_lost_tree, C111_lost_polynomial, C112_ends, C113_away, C113_missing, C113_bbox_refuted, C114_volume_infinite, C114_volume_gate_refuted, C114_wider, C114_largest, C114_max_diam, C114_gate, C114_gate_trajectories, C114_steepest, C114_vector_steepest, C114_vector_volume, C114_vector_gate, C114_vector_gate_refuted, C114_overlaps, C114_overlaps_full, C114_overlaps_refuted, C115_diam, C115_distance, C115_unbounded, C115_diam_v, C115_diam_v_refuted, C115_gap_refuted, C116_slice, C116_tube, C116_vector, C116_quiet, C116_unbounded_refuted, C116_vector_unbounded_refuted, C116_degenerate_refuted, C117_default_ratio_refuted, C118_contains_partial, C118_contains_refuted, C118_cross, C121_random, C121_draw, C122_contracts, C123_round_trip, C123_hsv2rgb, C124_color, C124_ends, C124_rgb, C124_hue, C124_hue_refuted, C125_put, C125_entries, C125_rgb, C125_hsv_refuted, C125_opacity

**F N C E** (72 theorems): C19_no_loss_partial, C20_instant_partial, C20_interval_partial, C25_no_loss, C26_no_loss_refuted, C26_no_loss_partial, C26_catan2_partial, C26_catan2_axes_partial, C26_axes_partial, C26_axis_refuted, C26_contracts, C37_primitive, C38_interval, C38_box, C38_trajectory, C38_trajectory_vector, C38_version, C38_type, C38_truncated_partial, C38_box_refuted, C38_trajectory_refuted, C38_truncated_refuted, C39_partial, C39_vector, C39_file, C39_read_ok, C39_truncated_partial, C39_refuted, C73, C73_volume, C73_volume_refuted, C79_no_loss, C79_scalar, C81_no_loss, C81_chain, C81_contracts_refuted, C87_verdict, C87_never, C87_codac2_never, C87_answers_partial, C87_refuted, C91_bdry_partial, C91_no_abort, C92_partial, C93_partial, C94_step_partial, C94_dim1_partial, C94_uncut_partial, C95_contracts, C95_out_partial, C95_in_partial, C95_separator_partial, C95_in_refuted, C95_out_refuted, C96_middle_partial, C96_box_partial, C96_box_refuted, C97_partial, C97_ibex_partial, C97_flat_refuted, C100_partial, C100_number_partial, C100_sivia, C101_partial, C101_contracts_refuted, C109_derivative, C118_contact_refuted, C122_outer, C122_inner, C122_outer_range, C122_complementary_partial, C122_landmark_refuted

**F C E** (59 theorems): C01_constructor_timestep, C40_ctc, C40_sep, C40_refuted, C44_sep, C45_box, C47_point_partial, C56_between, C64_partial, C64_refuted, C66_contains, C70_strict_subset, C71_largest, C71_thinnest, C83_inter, C83_box, C83_segment_partial, C83_point_partial, C83_any_box_partial, C85_fast, C88, C88_release_refuted, C89_partial, C89_outer_partial, C89_refuted, C90_partial, C90_outer_partial, C90_refuted, C91_once_partial, C91_refuted, C92_flat_refuted, C92_pair_refuted, C92_outside_refuted, C93_flat_refuted, C93_eps_refuted, C103_to2, C103_round, C106_tube, C106_vector, C110_programs, C110_separate, C110_vector, C110_self_assign_refuted, C110_default_source_refuted, C110_vector_self_refuted, C111_programs, C111_remove, C111_merge, C111_assign_refuted, C111_remove_refuted, C111_merge_refuted, C111_truncate_refuted, C111_synthesis_refuted, C112_keeps, C112_smallest, C112_precision, C112_hull_refuted, C113_union, C117_fixed_point

**no axiom** (52 theorems): C32_order_partial, C32_add_partial, C32_objects_refuted, C32_subnetwork_refuted, C32_layout_refuted, C43_default, C43_partial, C52_invert, C52_compose, C52_assoc, C52_inverse, C52_no_inverse_refuted, C60_vector_partial, C60_self_refuted, C74_not, C74_and, C74_or, C74_restrict, C74_xor, C74_or_exact, C74_and_exact_refuted, C74_xor_exact_refuted, C74_inter, C74_union, C74_union_least, C74_thick_inter_refuted, C74_thick_inter_comm_refuted, C74_thick_inter_partial, C74_singleton, C74_upper, C74_lower, C74_sup_sub, C74_test_and, C74_test_or, C74_test_inter, C74_test_qinter, C74_qinter_empty_refuted, C77_reduced, C77_values, C77_flag, C77_load_partial, C110_no_leak, C114_index, C119_expr_partial, C119_scalar, C119_scalar_refuted, C119_component_refuted, C119_ibex_refuted, trimmed_unique, C120_replace_all, C120_unique, C120_empty_search_refuted

**F N E** (18 theorems): C12_riemann, C26_catan2_depth, C63_refuted, C78_disk_partial, C78_set_params_partial, C78_disk_thin, C81_exp_refuted, C82_rotate_partial, C82_rotate_exact, C94_refuted, C101_exp_refuted, C114_volume, C114_volume_monotone, C114_volume_sample, C115_diag, C118_dist, C118_aligned_refuted, C118_contact

**F** (7 theorems): C24_cart_prod, C24_cart_prod_contracts, C24_segment_contracts, C42_built, C73_is_empty_refuted, C111_no_leak, C116_slice_infinite
