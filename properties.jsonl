{"id": "C01", "title": "Slices of a tube always form a consistent chain", "statement": "After any sequence of public operations that build or edit a tube (construction, sampling, setting values with gate consistency, removing gates, shifting the time domain), the slices cover exactly the tube's temporal domain without overlap or hole, each slice having a non-degenerate time interval, and the gate stored between two neighbouring slices is one shared value that is included in the envelopes of both neighbours.", "quantifier": "every tube and every finite sequence of editing operations with arbitrary arguments", "why_tests_cant": "A test runs a few scripts; the invariant must survive every interleaving of edits at arbitrary real instants.", "anchors": ["src/core/domains/tube/codac_Tube.cpp:Tube::sample", "src/core/domains/tube/codac_Tube.cpp:Tube::remove_gate", "src/core/domains/tube/codac_Tube.cpp:Tube::set", "src/core/domains/slice/codac_Slice.cpp:Slice::chain_slices", "src/core/domains/slice/codac_Slice.cpp:Slice::merge_slices", "src/core/domains/slice/codac_Slice.cpp:Slice::set_envelope"]}
{"id": "C02", "title": "Sampling a tube does not change the set of enclosed trajectories", "statement": "tube.sample(t) for t in the temporal domain adds a gate at t and changes nothing else: a trajectory was enclosed by the tube before the call if and only if it is enclosed afterwards, and every previously existing gate instant is still one.", "quantifier": "every tube, every instant t of its domain (inside a slice, on a gate, on a bound) and every real function of time", "why_tests_cant": "The set of trajectories is uncountable and the equivalence must hold for each of them.", "anchors": ["src/core/domains/tube/codac_Tube.cpp:Tube::sample", "src/core/domains/slice/codac_Slice.cpp:Slice::chain_slices"]}
{"id": "C03", "title": "Removing a gate never loses a trajectory", "statement": "remove_gate(t) and merge_similar_slices() may enlarge the tube but each trajectory enclosed before is still enclosed after, and the temporal domain is unchanged.", "quantifier": "every tube, every removable gate, every trajectory", "why_tests_cant": "quantifies over all real functions of time", "anchors": ["src/core/domains/tube/codac_Tube.cpp:Tube::remove_gate", "src/core/domains/tube/codac_Tube.cpp:Tube::merge_similar_slices", "src/core/domains/slice/codac_Slice.cpp:Slice::merge_slices"]}
{"id": "C04", "title": "Tube evaluation encloses every enclosed trajectory", "statement": "For each trajectory x enclosed by tube X, x(t) belongs to X(t) for every instant t, and x([t1,t2]) is included in X([t1,t2]) for each time interval; evaluation outside of the temporal domain returns (-oo,oo).", "quantifier": "every tube, trajectory, instant or interval (degenerate, spanning several slices, touching gates or domain bounds)", "why_tests_cant": "enclosure over uncountably many trajectories and times", "anchors": ["src/core/domains/tube/codac_Tube.cpp:Tube::operator()", "src/core/domains/slice/codac_Slice.cpp:Slice::operator()"]}
{"id": "C05", "title": "eval() encloses the bounds of the tube", "statement": "eval(t) returns two intervals that enclose respectively the lower and the upper bound that the tube takes at each instant of t.", "quantifier": "every tube and every time interval", "why_tests_cant": "boundary instants, gates and infinitely many inner times", "anchors": ["src/core/domains/tube/codac_Tube.cpp:Tube::eval", "src/core/domains/slice/codac_Slice.cpp:Slice::eval"]}
{"id": "C06", "title": "Tube inversion loses no pre-image", "statement": "For each trajectory x enclosed by tube X, for each time t of the search domain with x(t) in y, t is in X.invert(y, search) and in one of the subsets returned by the vector version of invert().", "quantifier": "every tube, y, search domain (including a single instant) and every trajectory", "why_tests_cant": "infinite sets of trajectories, search domains can touch gates", "anchors": ["src/core/domains/tube/codac_Tube.cpp:Tube::invert", "src/core/domains/slice/codac_Slice.cpp:Slice::invert"]}
{"id": "C07", "title": "Setting a value at an instant or interval constrains exactly what it says", "statement": "After set(y,t) the tube evaluated at t is included in y, and no value of the tube at instants outside the modified slices changes; set(y) makes the tube equal to y everywhere.", "quantifier": "every tube, value and instant", "why_tests_cant": "all instants of the domain must be compared", "anchors": ["src/core/domains/tube/codac_Tube.cpp:Tube::set", "src/core/domains/slice/codac_Slice.cpp:Slice::set", "src/core/domains/slice/codac_Slice.cpp:Slice::set_input_gate", "src/core/domains/slice/codac_Slice.cpp:Slice::set_output_gate"]}
{"id": "C08", "title": "Tube arithmetic is inclusion-correct", "statement": "For x in [x] and y in [y] the pointwise result of x+y, x-y, x*y, -x, and any unary function is enclosed by the tube computed by the corresponding tube operation, whatever the slicings of both operands.", "quantifier": "every pair of tubes (with equal or different slicing) and every pair of trajectories", "why_tests_cant": "uncountable sets of trajectories", "anchors": ["src/core/arithmetic/codac_tube_arithmetic_scalar.cpp", "src/core/domains/tube/codac_Tube.cpp:Tube::sample", "src/core/domains/tube/codac_Tube_operators.cpp"]}
{"id": "C09", "title": "Tube intersection and union have set semantics", "statement": "x & y encloses exactly the trajectories enclosed both in x and y; x | y encloses each trajectory enclosed in x or in y.", "quantifier": "every pair of tubes over the same domain, all trajectories", "why_tests_cant": "uncountable", "anchors": ["src/core/domains/tube/codac_Tube_operators.cpp:Tube::operator&=", "src/core/domains/tube/codac_Tube_operators.cpp:Tube::operator|=", "src/core/domains/slice/codac_Slice_operators.cpp"]}
{"id": "C10", "title": "contains() gives a reliable verdict", "statement": "Tube::contains(x) returns YES only if trajectory x is inside the tube at every instant of the domain and NO only if x leaves the tube at some instant.", "quantifier": "every tube, every trajectory whose interval evaluations are inclusion-correct, every bisection history", "why_tests_cant": "internally a bisection search of unbounded depth", "anchors": ["src/core/domains/tube/codac_Tube.cpp:Tube::contains", "src/core/domains/slice/codac_Slice.cpp:Slice::contains"]}
{"id": "C11", "title": "Set comparisons on tubes mean inclusion", "statement": "is_subset(x) is true exactly when each envelope and gate of this is included in the one of x; consequently each trajectory of this is a trajectory of x; is_subset is reflexive, transitive and antisymmetric with respect to ==, and != is the negation of ==.", "quantifier": "every pair/triple of tubes with the same slicing, plus tubes with different slicings for ==", "why_tests_cant": "order laws over all triples", "anchors": ["src/core/domains/tube/codac_Tube.cpp:Tube::is_subset", "src/core/domains/tube/codac_Tube.cpp:Tube::operator==", "src/core/domains/slice/codac_Slice.cpp:Slice::is_subset", "src/core/domains/slice/codac_Slice.cpp:Slice::operator=="]}
{"id": "C12", "title": "Integral of a tube encloses the integral of each trajectory", "statement": "For each continuous trajectory x enclosed by X and each t1,t2 in the temporal domain, the integral of x from t1 to t2 is in X.integral([t1],[t2]), and the integral from t0 to t is in X.integral(t).", "quantifier": "every tube, every continuous trajectory, every pair of integration bounds", "why_tests_cant": "needs an argument over all continuous functions", "anchors": ["src/core/domains/tube/codac_Tube.cpp:Tube::integral", "src/core/domains/tube/codac_Tube.cpp:Tube::partial_integral"]}
{"id": "C13", "title": "The synthesis tree answers like the list of slices", "statement": "With a synthesis tree enabled, slice(i), slice(t), time_to_index(t), operator()([t]), codomain() and invert() return the same result as without the tree, after any history of value changes and queries.", "quantifier": "every tube, every index / instant, every interleaving of writes and queries", "why_tests_cant": "caching bugs depend on the order of queries and writes", "anchors": ["src/core/domains/tube/codac_TubeTreeSynthesis.cpp:TubeTreeSynthesis::TubeTreeSynthesis", "src/core/domains/tube/codac_TubeTreeSynthesis.cpp:time_to_index", "src/core/domains/tube/codac_TubeTreeSynthesis.cpp:slice", "src/core/domains/tube/codac_TubeTreeSynthesis.cpp:operator()", "src/core/domains/tube/codac_TubeTreeSynthesis.cpp:update_values", "src/core/domains/tube/codac_TubeTreeSynthesis.cpp:request_values_update"]}
{"id": "C14", "title": "Integrals from the synthesis tree are never stale", "statement": "After any history of value changes and queries, integrals computed with a synthesis tree enclose the integrals of each trajectory of the current tube.", "quantifier": "every interleaving of set() / codomain() / integral() calls", "why_tests_cant": "needs all histories", "anchors": ["src/core/domains/tube/codac_TubeTreeSynthesis.cpp:TubeTreeSynthesis::update_integrals", "src/core/domains/tube/codac_TubeTreeSynthesis.cpp:TubeTreeSynthesis::request_integrals_update", "src/core/domains/tube/codac_TubeTreeSynthesis.cpp:TubeTreeSynthesis::partial_integral"]}
{"id": "C15", "title": "Tree-based partial integrals are enclosures for each slice sign", "statement": "With a synthesis tree, partial_integral(t) is a non-empty enclosure of the bounds of the integral for every non-empty tube, including slices whose envelope has a bound equal to zero.", "quantifier": "every non-empty tube and every t", "why_tests_cant": "bounds exactly equal to zero are measure-zero inputs", "anchors": ["src/core/domains/tube/codac_TubeTreeSynthesis.cpp:TubeTreeSynthesis::partial_integral", "src/core/domains/tube/codac_TubeTreeSynthesis.cpp:TubeTreeSynthesis::partial_primitive_bounds"]}
{"id": "C16", "title": "Truncating the time domain keeps restricted trajectories", "statement": "After truncate_tdomain([a,b]), each trajectory that was enclosed by the tube, restricted to [a,b], is enclosed by the truncated tube, whose temporal domain is [a,b].", "quantifier": "every tube and every sub-domain with bounds on gates or inside slices", "why_tests_cant": "all trajectories, all positions of the bounds", "anchors": ["src/core/domains/tube/codac_Tube.cpp:Tube::truncate_tdomain"]}
{"id": "C17", "title": "Shifting the time domain is a translation", "statement": "After shift_tdomain(a), the tube encloses t -> x(t-a) if and only if the tube enclosed x before; shifting by a then -a restores the tube.", "quantifier": "every tube, every shift, every trajectory", "why_tests_cant": "uncountable", "anchors": ["src/core/domains/tube/codac_Tube.cpp:Tube::shift_tdomain", "src/core/domains/slice/codac_Slice.cpp:Slice::shift_tdomain"]}
{"id": "C18", "title": "Inflating encloses each perturbed trajectory", "statement": "inflate(r) gives a tube that encloses x+d for each enclosed x and each perturbation d bounded by r.", "quantifier": "every tube, radius, trajectory and perturbation", "why_tests_cant": "uncountable", "anchors": ["src/core/domains/tube/codac_Tube.cpp:Tube::inflate", "src/core/domains/slice/codac_Slice.cpp:Slice::inflate"]}
{"id": "C19", "title": "CtcDeriv removes no solution and only contracts", "statement": "For all pairs (x,v) with x differentiable, x'=v, x in [x] and v in [v], x is still in [x] after CtcDeriv::contract in any time direction, fast or not; [x] after is included in [x] before, [v] is unchanged.", "quantifier": "all tubes with the same slicing, all differentiable x, forward/backward/both", "why_tests_cant": "needs the mean value theorem over all differentiable functions", "anchors": ["src/core/contractors/dyn/codac_CtcDeriv.cpp:CtcDeriv::contract", "src/core/contractors/dyn/codac_CtcDeriv.cpp:CtcDeriv::contract_gates"]}
{"id": "C20", "title": "CtcEval (with derivative) removes no solution", "statement": "For all (t,z,y,w) with z=y(t), y'=w, t in [t], z in [z], y in [y], w in [w]: still in the domains after CtcEval::contract; domains only shrink.", "quantifier": "all domains, all differentiable trajectories, all instants", "why_tests_cant": "uncountable", "anchors": ["src/core/contractors/dyn/codac_CtcEval.cpp:CtcEval::contract"]}
{"id": "C21", "title": "CtcEval without derivative removes no solution", "statement": "For t in [t], z in [z], y in [y] vector-valued with z=y(t): (t,z) are kept by CtcEval::contract(t,z,y) without derivative information.", "quantifier": "all domains and trajectories", "why_tests_cant": "tube inversion can return several disjoint time windows", "anchors": ["src/core/contractors/dyn/codac_CtcEval.cpp:CtcEval::contract (without derivative)"]}
{"id": "C22", "title": "CtcDelay removes no solution", "statement": "For all (a,x,y) with x(t)=y(t+a) whenever both t and t+a are in the temporal domain: a in [a], x in [x], y in [y] are kept by CtcDelay::contract, which only contracts.", "quantifier": "all delays (also negative, larger than the domain), tubes and trajectories", "why_tests_cant": "all delays and trajectories", "anchors": ["src/core/contractors/dyn/codac_CtcDelay.cpp:CtcDelay::contract"]}
{"id": "C23", "title": "A static contractor lifted to tubes removes no solution", "statement": "If C is a static contractor that loses no solution of a constraint, then CtcStatic(C) loses no vector of trajectories that satisfies the constraint at every instant, and only contracts.", "quantifier": "every contractor, every tube vector, every trajectory vector", "why_tests_cant": "generic over the contractor", "anchors": ["src/core/contractors/dyn/codac_CtcStatic.cpp:CtcStatic::contract", "src/core/contractors/static/codac_CtcFunction.cpp:CtcFunction::contract"]}
{"id": "C24", "title": "Composed static contractors keep solutions", "statement": "CtcUnion, CtcCartProd, CtcBox, CtcConstell, CtcSegment-like compositions: each point that satisfies the stated set (union, product, box, one of the beacons) and is in the initial box is in the contracted box; the result is included in the initial box.", "quantifier": "every list of sub-contractors, every box", "why_tests_cant": "generic in sub-contractors", "anchors": ["src/core/contractors/static/codac_CtcUnion.h", "src/core/contractors/static/codac_CtcCartProd.cpp", "src/core/contractors/static/codac_CtcBox.cpp", "src/robotics/contractors/codac_CtcConstell.cpp"]}
{"id": "C25", "title": "CtcDist removes no solution", "statement": "For each (ax,ay,bx,by,d) with d=sqrt((ax-bx)^2+(ay-by)^2) in the box: kept by CtcDist::contract; result included in the initial box.", "quantifier": "every 5-d box and real solution", "why_tests_cant": "uncountable", "anchors": ["src/core/contractors/static/codac_CtcDist.cpp:CtcDist::contract"]}
{"id": "C26", "title": "CtcPolar removes no solution", "statement": "For each x=rho cos(theta), y=rho sin(theta), rho>=0 in the box (x,y,rho,theta): kept by CtcPolar::contract.", "quantifier": "every box and every polar point, including the origin", "why_tests_cant": "measure-zero configurations", "anchors": ["src/core/contractors/static/codac_CtcPolar.cpp:Catan2"]}
{"id": "C27", "title": "CtcTransform contracts with respect to the inverse image", "statement": "CtcTransform(c,fwd,bwd) with bwd the inverse of fwd keeps each point x of the box such that fwd(x) satisfies the constraint of c.", "quantifier": "every contractor c, every invertible transformation, every box", "why_tests_cant": "generic", "anchors": ["src/core/separators/codac_CtcTransform.cpp:CtcTransform::contract"]}
{"id": "C28", "title": "Contractor network: no schedule loses a solution", "statement": "Whatever contractors are added and in whatever order and number they are called by contract(), contract_during() or contract_ordered_mode(), a joint assignment of the variables that satisfies every added contractor and is in the initial domains is in the final domains.", "quantifier": "every network, every solution, every run length (also interrupted by the time limit)", "why_tests_cant": "all schedules", "anchors": ["src/core/cn/codac_ContractorNetwork_solve.cpp:ContractorNetwork::contract", "src/core/cn/codac_ContractorNetwork_solve.cpp:ContractorNetwork::contract_during", "src/core/cn/codac_ContractorNetwork.cpp:ContractorNetwork::add"]}
{"id": "C29", "title": "Contractor network: domains only shrink", "statement": "After contract(), each domain is included in its value before, whatever the schedule and the moment the computation stops.", "quantifier": "every network, every schedule", "why_tests_cant": "all schedules", "anchors": ["src/core/cn/codac_ContractorNetwork_solve.cpp:ContractorNetwork::contract"]}
{"id": "C30", "title": "Contractor network: a contractor is never queued twice and termination means an empty stack", "statement": "At each moment a contractor appears at most once among those waiting to be called; nb_ctc_in_stack() is zero exactly when contract() returned without being interrupted, and each contractor connected to a domain that was significantly contracted after its last call is waiting.", "quantifier": "every network and every sequence of contractions/triggers", "why_tests_cant": "interleavings of triggers", "anchors": ["src/core/cn/codac_ContractorNetwork_solve.cpp:ContractorNetwork::add_ctc_to_queue", "src/core/cn/codac_ContractorNetwork_solve.cpp:ContractorNetwork::trigger_ctc_related_to_dom", "src/core/cn/codac_ContractorNetwork_solve.cpp:ContractorNetwork::trigger_all_contractors"]}
{"id": "C31", "title": "Contractor network: contract() with ratio 0 reaches a fixed point", "statement": "With set_fixedpoint_ratio(0), once contract() returns, calling any contractor of the network once more changes no domain.", "quantifier": "every network of idempotent contractors, including unbounded or degenerate domains", "why_tests_cant": "requires reasoning on all domain values", "anchors": ["src/core/cn/codac_ContractorNetwork_solve.cpp:ContractorNetwork::trigger_ctc_related_to_dom", "src/core/cn/codac_ContractorNetwork_solve.cpp:ContractorNetwork::set_fixedpoint_ratio", "src/core/cn/codac_Domain.cpp:Domain::compute_volume"]}
{"id": "C32", "title": "Contractor network: graph construction is idempotent", "statement": "Adding the same contractor on the same variables several times leaves one contractor; adding distinct ones keeps them all (distinct keys are not identified by the container's ordering).", "quantifier": "every sequence of add() calls and every memory layout", "why_tests_cant": "depends on addresses", "anchors": ["src/core/cn/codac_ContractorNetwork.cpp:ContractorNetwork::add_ctc", "src/core/cn/codac_ContractorNetwork.cpp:ContractorNetwork::add_dom", "src/core/cn/codac_Hashcode.cpp:ContractorHashcode::operator<"]}
{"id": "C33", "title": "Live data never enlarges a tube", "statement": "Feeding a tube variable with measurements through add_data(t,y) only contracts the tube: each trajectory inside the tube and consistent with the measured envelope is kept, and no value is added.", "quantifier": "every tube, every data sequence", "why_tests_cant": "all data histories", "anchors": ["src/core/cn/codac_Domain.cpp:Domain::add_data", "src/core/cn/codac_ContractorNetwork.cpp:ContractorNetwork::add_data"]}
{"id": "C34", "title": "Trajectory evaluation interpolates the samples", "statement": "For a sampled trajectory, x(t) is the piecewise linear interpolation: equal to the sample at each sample time, between neighbours otherwise; x([t1,t2]) encloses x(t) for each t in [t1,t2].", "quantifier": "every sample map and every t", "why_tests_cant": "uncountable t", "anchors": ["src/core/variables/trajectory/codac_Trajectory.cpp:Trajectory::operator()"]}
{"id": "C35", "title": "The codomain of a trajectory is the exact hull of its values", "statement": "After any sequence of constructions / set() / truncate_tdomain() / shift_tdomain() / primitive(), codomain() is the smallest interval that contains all values of the trajectory and tdomain() the hull of its sample times.", "quantifier": "every construction (from a map, from lists of times and values) and every operation sequence", "why_tests_cant": "all histories", "anchors": ["src/core/variables/trajectory/codac_Trajectory.cpp:Trajectory::Trajectory", "src/core/variables/trajectory/codac_Trajectory.cpp:Trajectory::set", "src/core/variables/trajectory/codac_Trajectory.cpp:Trajectory::compute_codomain"]}
{"id": "C36", "title": "Equality of trajectories is an equivalence", "statement": "operator== between trajectories is reflexive, symmetric and transitive, and operator!= is its negation.", "quantifier": "every pair/triple of trajectories", "why_tests_cant": "all pairs", "anchors": ["src/core/variables/trajectory/codac_Trajectory.cpp:Trajectory::operator==", "src/core/variables/trajectory/codac_Trajectory.cpp:Trajectory::operator!="]}
{"id": "C37", "title": "Trajectory primitive and finite differences are exact on polynomials", "statement": "primitive() of a sampled trajectory gives at each sample the exact integral of its piecewise linear interpolation; finite_diff of order p applied to a sampled polynomial of degree at most p gives its exact derivative at each sample.", "quantifier": "all sample values, steps, polynomials", "why_tests_cant": "all coefficients", "anchors": ["src/core/variables/trajectory/codac_Trajectory.cpp:Trajectory::primitive", "src/core/variables/trajectory/codac_Trajectory.cpp:Trajectory::finite_diff", "src/core/variables/trajectory/codac_Trajectory.cpp:Trajectory::diff"]}
{"id": "C38", "title": "Serialization round trip of intervals and trajectories", "statement": "deserialize(serialize(x)) returns x and consumes exactly the written bytes, for each interval (empty, unbounded, half-lines, bounded), box and sampled trajectory; truncated or wrong-version input is rejected rather than misread.", "quantifier": "every value, every following content of the stream", "why_tests_cant": "all bit patterns", "anchors": ["src/core/serialize/codac_serialize_intervals.cpp", "src/core/serialize/codac_serialize_trajectories.cpp"]}
{"id": "C39", "title": "Serialization round trip of tubes", "statement": "deserialize(serialize(x)) == x for every tube x.", "quantifier": "every tube, including those with gates set without consistency", "why_tests_cant": "all tubes", "anchors": ["src/core/serialize/codac_serialize_tubes.cpp"]}
{"id": "C40", "title": "SIVIA covers the box and classifies correctly", "statement": "SIVIA with a contractor or a separator: each solution of the initial box lies in an UNKNOWN (or IN) box, each box reported OUT has no solution and each box reported IN only has solutions; the returned boxes cover the initial box.", "quantifier": "every contractor/separator, box and precision", "why_tests_cant": "all points", "anchors": ["src/core/sivia/codac_sivia.cpp:SIVIA"]}
{"id": "C41", "title": "SIVIA terminates", "statement": "For a bounded initial box and a positive precision, SIVIA terminates, whatever the contractor.", "quantifier": "every contractor, bounded box, precision>0", "why_tests_cant": "non-termination can't be tested", "anchors": ["src/core/sivia/codac_sivia.cpp:SIVIA"]}
{"id": "C42", "title": "Connected subsets form the connected components of the selected leaves", "statement": "get_connected_subsets(val) puts each leaf of the paving with a matching value in exactly one subset; two leaves are in the same subset if and only if they are linked by a chain of pairwise neighbouring matching leaves.", "quantifier": "every paving tree (incl. copies), every values", "why_tests_cant": "graph property over all trees", "anchors": ["src/core/paving/codac_Paving.cpp:Paving::get_connected_subsets", "src/core/paving/codac_Paving.cpp:Paving::get_neighbours"]}
{"id": "C43", "title": "get_boxes returns exactly the matching leaves", "statement": "get_boxes(l,val,neg_val) returns each leaf box with a value in val, the optional neg_val being only an accelerator for rejected values.", "quantifier": "every paving", "why_tests_cant": "all trees/values", "anchors": ["src/core/paving/codac_Paving.cpp:Paving::get_boxes"]}
{"id": "C44", "title": "q-relaxed intersection keeps each point that is in q boxes", "statement": "qinter_projf(boxes,q), q>0, contains each point that belongs to at least q of the boxes, and per axis it is the smallest interval that does; the separator SepQInterProjF is a valid separator for 'satisfied by at least n-q sets' for each 0<=q<n, other values of q being rejected by an assertion.", "quantifier": "every list of boxes (empty, degenerate, equal bounds) and q", "why_tests_cant": "ties between bounds", "anchors": ["src/core/separators/codac_QInterProjF.cpp:qinter_projf", "src/core/separators/codac_QInterProjF.cpp:SepQInterProjF::separate"]}
{"id": "C45", "title": "Separators are complementary", "statement": "SepBox and SepTransform: separate(x_in,x_out) removes from x_out only points outside the set, from x_in only points inside it; starting from the same box, each point stays in at least one of the two.", "quantifier": "every box and every set", "why_tests_cant": "all points", "anchors": ["src/core/separators/codac_SepBox.cpp:SepBox::separate", "src/core/separators/codac_SepTransform.cpp:SepTransform::separate"]}
{"id": "C46", "title": "SepCtcPairProj can be used after each constructor", "statement": "Each constructor of SepCtcPairProj yields an object on which separate() is well defined.", "quantifier": "every constructor", "why_tests_cant": "uninitialised memory may pass tests by luck", "anchors": ["src/core/separators/codac_SepCtcPairProj.cpp"]}
{"id": "C47", "title": "ConvexPolygon::contains is a reliable verdict", "statement": "contains(p) answers YES only if the (thick) point p is inside the polygon, NO only if it is outside.", "quantifier": "every convex polygon and (thick) point", "why_tests_cant": "all points", "anchors": ["src/core/geometry/codac_ConvexPolygon.cpp:ConvexPolygon::contains"]}
{"id": "C48", "title": "The point ordering used by the convex hull is a strict weak order", "statement": "The comparator passed to the sorting algorithm of the Graham scan is irreflexive, asymmetric and transitive.", "quantifier": "all point triples", "why_tests_cant": "ordering laws", "anchors": ["src/core/geometry/codac_GrahamScan.cpp:ThickPointsSorter"]}
{"id": "C49", "title": "codac2 temporal domains stay a partition", "statement": "After any sequence of sample() calls, the tslices of a TDomain form a contiguous partition of [t0,tf] with gates placed between slices, each previously existing bound being still a bound.", "quantifier": "every sequence of samplings inside and outside the domain", "why_tests_cant": "all histories", "anchors": ["src/core/2/domains/tube/codac2_TDomain.cpp:TDomain::sample", "src/core/2/domains/tube/codac2_TDomain.cpp:TDomain::TDomain"]}
{"id": "C50", "title": "all_gates_defined tells whether each slice bound has a gate", "statement": "all_gates_defined() returns true if and only if there is a gate at t0, at tf and between each pair of consecutive slices.", "quantifier": "every TDomain", "why_tests_cant": "all tslice lists", "anchors": ["src/core/2/domains/tube/codac2_TDomain.cpp:TDomain::all_gates_defined"]}
{"id": "C51", "title": "codac2 Tube::set(y) makes the tube equal to y", "statement": "After x.set(y) with non-empty y, x(t)=y at each t; after x=z (same tdomain), x equals z.", "quantifier": "every tube and y", "why_tests_cant": "previous content matters", "anchors": ["src/core/2/domains/tube/codac2_Tube.h:Tube::set", "src/core/2/domains/tube/codac2_Tube.h:Tube::operator=", "src/core/2/domains/tube/codac2_Slice.h:Slice::set"]}
{"id": "C52", "title": "Octahedral symmetries form a group and CtcAction is sound", "statement": "For signed permutations: s.invert() is a two-sided inverse, composition is associative and acts on boxes accordingly; CtcAction(c,s) keeps each point whose image by s satisfies the constraint of c.", "quantifier": "every signed permutation of every size, every contractor", "why_tests_cant": "all permutations", "anchors": ["src/core/2/actions/codac2_Action.cpp:OctaSym", "src/core/2/contractors/codac2_CtcAction.cpp:CtcAction::contract"]}
{"id": "C53", "title": "codac2 Paving::boxes_list(box) only returns leaves that meet the box", "statement": "boxes_list(b) returns exactly the non-empty leaf boxes intersecting b.", "quantifier": "every paving tree and box", "why_tests_cant": "all trees", "anchors": ["src/core/2/domains/paving/codac2_Paving.h:boxes_list"]}
{"id": "C54", "title": "Loops are never discarded", "statement": "After TPlane::compute_detections, a pair (t1,t2), t1<t2, for which an enclosed trajectory satisfies p(t1)=p(t2) is never in a box with value OUT.", "quantifier": "every tube vector (also thin ones) and precision", "why_tests_cant": "uncountable", "anchors": ["src/robotics/loops/codac_TPlane.cpp:TPlane::compute_detections"]}
{"id": "C55", "title": "Thick interval tests hold for each selection", "statement": "is_subset / is_not_subset / is_disjoint / intersects of thick intervals return true only if the relation holds for every pair of intervals selected from them; the intersection of thick intervals encloses the intersection of selections.", "quantifier": "all thick intervals", "why_tests_cant": "uncountable", "anchors": ["src/unsupported/thickset/codac_ThickInterval.h"]}
{"id": "C56", "title": "A tube built between two trajectories encloses what lies between them", "statement": "Tube(lb, ub, timestep) encloses each trajectory x with lb(t) <= x(t) <= ub(t) for all t of the temporal domain.", "quantifier": "all bound functions, time steps and trajectories between the bounds", "why_tests_cant": "uncountable trajectories, any slicing", "anchors": ["src/core/domains/tube/codac_Tube.cpp: Tube(const TrajectoryPtr&, ...)", "src/core/domains/tube/codac_Tube.cpp: constructors"]}
{"id": "C57", "title": "A tube built from lists of domains encloses exactly the trajectories in each box", "statement": "Tube(v_tdomains, v_codomains) with contiguous time domains has one slice per item and encloses a trajectory if and only if it stays in each codomain over the corresponding time domain.", "quantifier": "all lengths of lists, all increasing instants, all codomains", "why_tests_cant": "unbounded lists", "anchors": ["src/core/domains/tube/codac_Tube.cpp: Tube(const vector<Interval>&, const vector<Interval>&)"]}
{"id": "C58", "title": "eval(t) with the synthesis tree encloses the bounds of the current tube", "statement": "With a synthesis tree enabled, the pair returned by eval([t]) contains, for each t of [t], the lower and the upper bound of the current value x(t), after any history of value changes and queries.", "quantifier": "every tube, every interval [t] of its domain, every interleaving of writes and queries", "why_tests_cant": "the caches are wrong only for some orders of gate writes and queries", "anchors": ["src/core/domains/tube/codac_TubeTreeSynthesis.cpp:TubeTreeSynthesis::eval", "src/core/domains/tube/codac_TubeTreeSynthesis.cpp:TubeTreeSynthesis::codomain_bounds", "src/core/domains/slice/codac_Slice.cpp:Slice::set_input_gate"]}
{"id": "C59", "title": "Trajectory arithmetic is pointwise", "statement": "For two trajectories with the same domain, (x op y)(t) is x(t) op y(t) at each sample time of x or of y, for the operators + - * /, for atan2, min and max, and after x op= y; the unary functions apply to each value.", "quantifier": "every pair of trajectories, sampled at the same times or not, analytic or not; every sample time", "why_tests_cant": "all pairs of sampling grids", "anchors": ["src/core/arithmetic/codac_traj_arithmetic_scalar.cpp", "src/core/variables/trajectory/codac_Trajectory_operators.cpp"]}
{"id": "C61", "title": "Resampling, truncating and shifting keep the values", "statement": "sample(), truncate_tdomain() and shift_tdomain() do not change the values of a trajectory: x(t) is the same before and after for each t kept (up to the shift of time), sample(dt) and sample(x) only add sample times.", "quantifier": "every trajectory, every step, every truncated domain and every shift", "why_tests_cant": "uncountable t", "anchors": ["src/core/variables/trajectory/codac_Trajectory.cpp:Trajectory::truncate_tdomain", "src/core/variables/trajectory/codac_Trajectory.cpp:Trajectory::shift_tdomain", "src/core/variables/trajectory/codac_Trajectory.cpp:Trajectory::sample"]}
{"id": "C60", "title": "Assignment of trajectories is memory safe and copies the value", "statement": "Programs made of constructions, copies, assignments, samplings and destructions of Trajectory objects never release an expression twice nor read a released one, leave nothing allocated, and give to each object the value it would have if objects were plain values; assigning a TrajectoryVector copies its components.", "quantifier": "every sequence of operations on any number of objects, including self-assignment", "why_tests_cant": "all sequences of operations; a double release may go unnoticed in a run", "anchors": ["src/core/variables/trajectory/codac_Trajectory.cpp:Trajectory::operator=", "src/core/variables/trajectory/codac_Trajectory.cpp:Trajectory::sample", "src/core/variables/trajectory/codac_Trajectory.cpp:Trajectory::~Trajectory", "src/core/variables/trajectory/codac_TrajectoryVector.cpp:TrajectoryVector::operator="]}
{"id": "C62", "title": "Live data contracts each slice it covers", "statement": "After a sequence of add_data(t,y), the codomain of each slice whose temporal domain lies between the first and the last datum is inside of the envelope of the lines that join the bounds of the successive data over this slice.", "quantifier": "every tube, every sequence of data, whatever the jumps between the times of the data", "why_tests_cant": "depends on the order of the data and on the previous values of the slices", "anchors": ["src/core/cn/codac_Domain.cpp:Domain::add_data"]}
{"id": "C63", "title": "SIVIAPaving::compute classifies the whole box and terminates", "statement": "After SIVIAPaving p(box); p.compute(f,y,eps) / compute(ctc,eps) / compute(sep,eps), the leaves of p cover the box; each leaf IN only contains points x for which f(x) exists and is in y (resp. points of the set), each leaf OUT contains none, each UNKNOWN leaf is smaller than eps; the recursion terminates.", "quantifier": "every function (also partially defined ones such as sqrt), contractor, separator, box and eps>0", "why_tests_cant": "Tests draw a few pavings; a statement on all points of all leaves for every function needs a proof, and the functions that are undefined on a part of the box are not tested.", "anchors": ["src/core/paving/codac_SIVIAPaving.cpp:SIVIAPaving::compute", "src/core/paving/codac_Paving.cpp:Paving::bisect"]}
{"id": "C64", "title": "The fixed point of a separator is a separator", "statement": "SepFixPoint(s) of a valid separator s is a valid separator of the same set: it removes from x_in only points of the set, from x_out only points out of the set.", "quantifier": "every valid separator, box and ratio", "why_tests_cant": "the boxes are rebuilt from the first contraction only; tests use one monotone separator", "anchors": ["src/core/separators/codac_SepFixPoint.cpp:SepFixPoint::separate", "src/core/separators/codac_SepFixPoint.cpp:SepFixPoint::reconstruct"]}
{"id": "C65", "title": "The intersection of thick edges encloses the common points", "statement": "ThickEdge operator& returns a box that contains each point common to a segment selected in the first edge and a segment selected in the second one; parallel() answers YES only for parallel edges and NO only for edges that are not.", "quantifier": "every pair of edges whose end points are boxes (also flat, vertical, horizontal, collinear) and every selection of points in them", "why_tests_cant": "The code has fourteen branches on the verdicts of is_vertical / is_horizontal / is_degenerated; tests use a few thin edges, collinear slanted edges are not tested.", "anchors": ["src/core/geometry/codac_ThickEdge.cpp:ThickEdge::operator&", "src/core/geometry/codac_ThickEdge.cpp:ThickEdge::proj_intersection", "src/core/geometry/codac_ThickEdge.cpp:ThickEdge::parallel"]}
{"id": "C66", "title": "GrahamScan::convex_hull gives the convex hull of the points, counterclockwise", "statement": "The vertices returned by GrahamScan::convex_hull are some of the given points; a point is in the polygon of these vertices exactly when it is in the smallest convex set that contains the given points; the polygon never turns clockwise, and it is strictly convex when no three given points are on a line.", "quantifier": "every list of points (repeated points, aligned points, any order)", "why_tests_cant": "The set of lists of points is infinite; sorting with ties, removal of aligned points and the pops of the stack interact, tests use a few fixed clouds of points.", "anchors": ["src/core/geometry/codac_GrahamScan.cpp:GrahamScan::convex_hull", "src/core/geometry/codac_ThickPoint.cpp:ThickPoint::remove_identical_pts", "src/core/geometry/codac_ConvexPolygon.cpp:ConvexPolygon::ConvexPolygon"]}
{"id": "C67", "title": "codac2: x([a,b])=y sets the values on [a,b]", "statement": "After x([a,b])=y with a<b and non-empty y, all values of x on [a,b] are y and the values elsewhere are kept: the trajectories of x are those whose values on [a,b] are in y, the other constraints being unchanged; after x.set(y,t), the values at t are in y.", "quantifier": "every tube, interval [a,b] (inside or outside of the temporal domain) and y", "why_tests_cant": "The result depends on the bounds and gates that already exist around a and b and on the old content; tests use a few tdomains.", "anchors": ["src/core/2/domains/tube/codac2_TubeEvaluation.h:TubeEvaluation::operator=", "src/core/2/domains/tube/codac2_Tube.h:Tube::set", "src/core/2/domains/tube/codac2_TDomain.cpp:TDomain::sample"]}
{"id": "C68", "title": "codac2: evaluations of a tube enclose its trajectories", "statement": "For each trajectory f of a tube, f(t) is in x(t) for each t of the temporal domain, and f(t) is in x([a,b]) for each t of [a,b]; x(t) is exactly the intersection of the values of the slices that contain t when gates are included in the neighbouring slices.", "quantifier": "every tube, instant, interval and trajectory", "why_tests_cant": "all tdomains, instants on bounds with or without gates", "anchors": ["src/core/2/domains/tube/codac2_Tube.h:Tube::eval", "src/core/2/domains/tube/codac2_TDomain.cpp:TDomain::iterator_tslice"]}
{"id": "C69", "title": "codac2: x &= z is the intersection of the tubes", "statement": "After x &= z, with tubes on the same temporal domain, the trajectories of x are exactly those that were both in x and in z.", "quantifier": "every pair of tubes on the same tdomain", "why_tests_cant": "gates, slices without gates and the propagation of emptiness interact during the loop", "anchors": ["src/core/2/domains/tube/codac2_Tube.h:Tube::operator&=", "src/core/2/domains/tube/codac2_Slice.h:Slice::set"]}
{"id": "C70", "title": "codac2: tests and set operations on boxes are exact", "statement": "is_empty, is_subset, is_strict_subset, contains, intersects, is_disjoint and == answer true exactly when the relation holds between the sets of points of the boxes; x & y has exactly the common points and x | y is the smallest box that contains both.", "quantifier": "every pair of boxes of the same dimension, bounded or not, with empty components or not", "why_tests_cant": "all dimensions and all combinations of empty, unbounded and degenerated components", "anchors": ["src/core/2/domains/interval/codac2_IntervalMatrix.h:IntervalMatrix_::is_subset", "src/core/2/domains/interval/codac2_IntervalMatrix.h:IntervalMatrix_::is_strict_subset", "src/core/2/domains/interval/codac2_IntervalMatrix.h:IntervalMatrix_::is_disjoint", "src/core/2/domains/interval/codac2_IntervalMatrix.h:IntervalMatrix_::operator|="]}
{"id": "C71", "title": "codac2: largest and thinnest components, bisection of a box", "statement": "largest_diam_index (thinnest_diam_index) gives a component that is not strictly included in (does not strictly include) another one, of maximal (minimal) width among the bounded ones, unbounded as soon as one is; bisect cuts the box across the largest component, the two halves cover the box and share only the cut.", "quantifier": "every non-empty box of dimension at least one", "why_tests_cant": "the selection goes through two loops whose branches depend on the order of bounded, half-bounded and unbounded components", "anchors": ["src/core/2/domains/interval/codac2_IntervalMatrix.h:IntervalMatrix_::extr_diam_index", "src/core/2/domains/interval/codac2_IntervalMatrix.h:IntervalMatrix_::bisect"]}
{"id": "C72", "title": "codac2: difference and complementary of boxes", "statement": "The boxes of x.diff(y) are included in x, contain each point of x that is not in y and no point of the interior of y; the boxes of complementary() contain each point out of the box and none of its interior.", "quantifier": "every pair of boxes, both values of compactness", "why_tests_cant": "the loop modifies x while it lists the pieces; early returns for equal, disjoint and flat boxes", "anchors": ["src/core/2/domains/interval/codac2_IntervalVector.h:IntervalVector_::diff", "src/core/2/domains/interval/codac2_IntervalVector.h:IntervalVector_::complementary"]}
{"id": "C73", "title": "codac2: pavings cover their root box", "statement": "After any sequence of bisections of leaves, the leaves cover exactly the initial box, hull_box is this box, the volume of the paving is the volume of the box and is_empty tells whether it has no point; for any paving hull_box is the smallest box that contains the leaves and is_empty is true exactly when no leaf has a point.", "quantifier": "every initial box and sequence of bisections; every paving", "why_tests_cant": "unbounded trees, nodes with a single child, unbounded and degenerated boxes", "anchors": ["src/core/2/domains/paving/codac2_Paving.h:PavingBase::bisect", "src/core/2/domains/paving/codac2_Paving.h:PavingBase::hull_box", "src/core/2/domains/paving/codac2_Paving.h:PavingBase::is_empty", "src/core/2/domains/paving/codac2_Paving.h:PavingBase::volume"]}
{"id": "C74", "title": "Thick booleans: logic of sets known by two bounds", "statement": "The tables of not, and, or, restrict, xor on thick booleans enclose the status of the point for every pair of sets compatible with the operands; intersection and union are those of the sets of statuses; the tests ThickAnd, ThickOr, ThickInter and ThickQInter (at least q sets) enclose the status for any list of sets.", "quantifier": "every value, every compatible set, every list of tests and every q", "why_tests_cant": "tables of 49 entries combined over lists of any length; the meaning of an entry is a statement on all compatible sets", "anchors": ["src/unsupported/thickset/codac_ThickBoolean.h:opAnd", "src/unsupported/thickset/codac_ThickBoolean.h:opOr", "src/unsupported/thickset/codac_ThickBoolean.h:opInter", "src/unsupported/thickset/codac_ThickTest.cpp:ThickQInter::test"]}
{"id": "C75", "title": "Thick pavings: Sivia encloses the status of every point", "statement": "With a test that answers right on boxes, the paving computed by Sivia covers the initial box, each leaf value encloses the status of each point of the leaf, and the leaves that are not decided are smaller than eps; refining a right paving with the operators of intersection, union or same set keeps it right.", "quantifier": "every initial tree made of bisections, every right test, every bisector", "why_tests_cant": "trees of any depth; the value of a leaf is the combination of the values inherited from its ancestors and of the test", "anchors": ["src/unsupported/thickset/codac_ThickPaving.cpp:ThickPaving::Sivia", "src/unsupported/thickset/codac_ThickPaving.cpp:ThickPaving::ThickPaving"]}
{"id": "C76", "title": "Thick pavings as contractors and tests", "statement": "ctcOutside (ctcInside) removes from a box only points that are surely outside (inside), and contracts to a box enclosing the other leaves; contains encloses the status of each point of the box.", "quantifier": "every right paving, box and point", "why_tests_cant": "the points lost are on shared faces of the boxes of the paving and in flat boxes", "anchors": ["src/unsupported/thickset/codac_ThickPaving.cpp:ThickPaving::ctcOutside", "src/unsupported/thickset/codac_ThickPaving.cpp:ThickPaving::ctcInside", "src/unsupported/thickset/codac_ThickPaving.cpp:ThickPaving::contains"]}
{"id": "C77", "title": "Thick pavings: reunite, change and files", "statement": "reunite gives a paving without equal brother leaves in which each point has the same values, and tells whether something was merged; change applies the operator at each point; a paving saved and loaded is the same paving.", "quantifier": "every tree made of bisections", "why_tests_cant": "recursion on trees of any shape; the file round trip depends on the boxes", "anchors": ["src/unsupported/thickset/codac_PNode_impl.hpp:PNode::reunite", "src/unsupported/thickset/codac_PNode_impl.hpp:PNode::load", "src/unsupported/thickset/codac_ThickPaving.cpp:ThickPaving::change"]}
{"id": "C78", "title": "Thick tests: disks, functions, translated boxes", "statement": "The answer of ThickDisk::test on a box encloses the status of each of its points for the disk of uncertain centre and radii, also after setParams; the same for ThinfIn, ThickfIn and ThickTranslateInBox.", "quantifier": "every centre, radii, box and point", "why_tests_cant": "real parameters; the status quantifies over all the possible centres", "anchors": ["src/unsupported/thickset/codac_ThickTest.cpp:ThickDisk::test", "src/unsupported/thickset/codac_ThickTest.h:ThickDisk", "src/unsupported/thickset/codac_ThickTest.cpp:ThickfIn::test"]}
{"id": "C79", "title": "Picard contractor: guaranteed integration of a differential equation", "statement": "CtcPicard keeps every solution of x'(t)=f(t,x(t)) contained in the tube, in both directions of propagation, with or without preservation of the slicing, and its result is included in the initial tube.", "quantifier": "every tube vector, inclusion function, widening factor, direction, solution and number of iterations", "why_tests_cant": "quantifies over all the solutions of all the differential equations; the fixpoint argument is about real trajectories", "anchors": ["src/core/contractors/dyn/codac_CtcPicard.cpp:CtcPicard::contract", "src/core/contractors/dyn/codac_CtcPicard.cpp:CtcPicard::guess_kth_slices_envelope", "src/core/contractors/dyn/codac_CtcPicard.cpp:CtcPicard::contract_kth_slices", "src/core/functions/codac_TFunction.cpp:TFunction::eval_vector"]}
{"id": "C80", "title": "TubePaving classifies the space reached by a tube", "statement": "TubePaving::compute covers the initial box with leaves. For a TubeVector whose components share their slicing and hold a trajectory, an IN leaf only holds values that trajectories of the tube reach at some instant, no value of an OUT leaf is reached at any instant, and the other leaves are below the precision. For a scalar tube (boxes t x x), an OUT leaf holds no point of the graph of a trajectory of the tube, and an IN leaf only holds such points.", "quantifier": "all tubes, all slicings, all initial boxes, all precisions, all bisectors that cover the box", "why_tests_cant": "The claim is about all the points of the boxes and all the trajectories of the tube; a test samples finitely many.", "anchors": ["src/core/paving/codac_TubePaving.cpp:26-119", "src/core/domains/tube/codac_TubeVector.cpp:509-560"]}
{"id": "C81", "title": "CtcLinobs and CtcChain keep the trajectories of a linear system", "statement": "For x' = A x + b u with (x1, x2) and u in given tubes of same slicing, and observations (t, y), CtcLinobs::contract keeps every trajectory of the system that is in the tubes, stays within [-9999, 9999] and meets the observations, for all the temporal propagations; the polygons at the gates enclose it. The enclosure of exp(A s) over a slice is the hull of its values at the two ends, so this needs that the exponential does not leave this hull, which is the case of CtcChain (x' = v, v' = a) for all the slicings. The result is not always included in the given tube.", "quantifier": "all matrices, all slicings, all inputs, all observations, all trajectories, all implementations of the polygons that keep the points", "why_tests_cant": "A test samples some trajectories with short slices; it says nothing of the other trajectories or durations.", "anchors": ["src/core/contractors/dyn/codac_CtcLinobs.cpp:22-41", "src/core/contractors/dyn/codac_CtcLinobs.cpp:122-261", "src/core/contractors/dyn/codac_CtcChain.cpp:20-47"]}
{"id": "C82", "title": "Operations on convex polygons enclose the image of the polygon", "statement": "ConvexPolygon(thick points), ConvexPolygon(box), x + v, x - v, v - x, -x, M * x, p1 | p2 and rotate return a polygon that contains the image of every point of the operands, for every value in the intervals; with exact operators it is exactly the set of these images (its convex hull for the union). The constructor replaces a box smaller than 1e-10 by one of its corners, so this needs that every computed box is a point or has a side of at least 1e-10.", "quantifier": "all polygons, boxes, interval matrices, angles, centers, all points of them, all inclusion-correct interval operators", "why_tests_cant": "A test compares vertices for a few polygons; it does not say that no point is lost for the other ones, nor what happens with boxes of any size.", "anchors": ["src/core/geometry/codac_ConvexPolygon.cpp:26-93", "src/core/geometry/codac_ConvexPolygon.cpp:259-288", "src/core/arithmetic/codac_polygon_arithmetic.cpp:19-68", "src/core/arithmetic/codac_polygon_arithmetic.cpp:139-159"]}
{"id": "C83", "title": "The intersection of two convex polygons is exactly the set of their common points", "statement": "p1 & p2 contains every point that is in both polygons and, with exact operators, no other point. The same holds for the intersection of a box and a polygon. In particular the list of points collected by inter_thickpoints (vertices of one inside the other, crossings of edges, ends of parallel edges) is enough to rebuild the intersection.", "quantifier": "all strictly convex polygons, all bounded boxes, all points", "why_tests_cant": "A test compares the vertices for a few pairs of polygons; a missed kind of vertex (parallel edges, common vertices, a polygon inside the other one) shows only for particular positions.", "anchors": ["src/core/arithmetic/codac_polygon_arithmetic.cpp:70-137", "src/core/geometry/codac_ThickEdge.cpp:111-121", "src/core/geometry/codac_ConvexPolygon.cpp:130-170"]}
{"id": "C84", "title": "Simplifying a convex polygon never loses a point", "statement": "ConvexPolygon::simplify(max_edges) returns a convex polygon that contains every point of the polygon, stays in the box of the polygon inflated by twice its largest side, and has at most max_edges vertices; at each step the edge that is removed is the one whose removal adds the least surface. A polygon with at most max_edges vertices is left unchanged.", "quantifier": "all strictly convex polygons, all max_edges >= 3, all points", "why_tests_cant": "A test checks the vertices obtained from a few polygons; it does not say that the other ones are enclosed, nor that the greedy choice is right for all of them.", "anchors": ["src/core/geometry/codac_ConvexPolygon.cpp:186-257", "src/core/geometry/codac_ThickEdge.cpp:177-248"]}
{"id": "C85", "title": "The box of the part of a polygon or of an edge inside a box is the smallest one", "statement": "ConvexPolygon::fast_intersection(x) returns the smallest box that contains the points of the polygon that are in x (the empty box when there is none); ThickEdge & x does the same for a segment.", "quantifier": "all strictly convex polygons, all segments, all boxes x (bounded or not for the polygon), all points", "why_tests_cant": "A test checks a few positions of a box and a polygon; the answer depends on which sides are crossed, on vertices and corners that coincide, and on flat boxes.", "anchors": ["src/core/geometry/codac_ConvexPolygon.cpp:293-321", "src/core/geometry/codac_ThickEdge.cpp:136-175", "src/core/geometry/codac_ThickEdge.cpp:276-288"]}
{"id": "C86", "title": "contains() of codac2 tubes gives a reliable verdict", "statement": "codac2 Tube<IntervalVector>::contains(x) returns YES only if the trajectory x is inside every slice and every gate of the tube at each instant, and NO only if it is not; with exact instants it always returns.", "quantifier": "every codac2 tube of boxes (any dimension, any mix of slices and gates), every trajectory vector with inclusion-correct evaluations, every bisection history", "why_tests_cant": "gates are skipped by the loop and only seen through the neighbouring slices, for each possible arrangement of slices and gates; the bisection depth is unbounded", "anchors": ["src/core/2/domains/tube/codac2_Slice.h:Slice::contains", "src/core/2/domains/tube/codac2_Tube.h:Tube::contains"]}
{"id": "C87", "title": "contains() answers although instants are doubles", "statement": "With floating-point instants, the bisections of Slice::contains (codac and codac2) stop with a verdict, and this verdict is reliable.", "quantifier": "every rounding mode, every slice with double bounds, every trajectory with inclusion-correct evaluations, every number of turns of the loop", "why_tests_cant": "the stop test compares a width to 1000 times the smallest positive double, and an interval between consecutive doubles can be bisected into itself: a test cannot observe the absence of an answer", "anchors": ["src/core/domains/slice/codac_Slice.cpp:Slice::contains", "src/core/domains/slice/codac_Slice.h:EPSILON_CONTAINS", "src/core/2/domains/tube/codac2_Slice.h:Slice::contains"]}
{"id": "C88", "title": "SepProj only removes points of the projection from x_in", "statement": "Let Z be a set of pairs (x,y), sep a sound separator of Z and y0 a box of parameters. When SepProj::separate(x_in,x_out) ends on x_in = x_out = x0, each point of x0 that is no longer in x_in is in the projection: there is a y of y0 with (x,y) in Z.", "quantifier": "For all dimensions, sets Z, sound separators, boxes x0 and y0, precisions, bisectors and numbers of turns; with the assertions compiled, and without them (NDEBUG).", "why_tests_cant": "The tests compare a few pavings; the loss needs a particular order of the boxes of the queue, and depends on whether the assertions are compiled.", "anchors": ["src/core/separators/codac_SepProj.cpp:SepProj::separate", "src/core/separators/codac_SepProj.cpp:SepProj::process", "src/core/separators/codac_SepProj.cpp:SepProj::fixpoint", "src/core/separators/codac_SepProj.h:ImpactStatus::reconstrut_v2"]}
{"id": "C89", "title": "SepProj keeps the points of the projection in x_out", "statement": "When SepProj::separate(x_in,x_out) ends on x_in = x_out = x0, each point of x0 that is in the projection (some y of y0 gives a pair of Z) is still in x_out.", "quantifier": "For all dimensions, sets Z, sound separators, boxes x0 and y0, precisions, bisectors and numbers of turns.", "why_tests_cant": "The loss happens when a later sub-box of y proves that a part of x is outside while x_in has already been contracted; no finite set of pavings covers the orders of the queue.", "anchors": ["src/core/separators/codac_SepProj.cpp:SepProj::separate", "src/core/separators/codac_SepProj.cpp:complementaryUnion", "src/core/separators/codac_SepProj.cpp:SepProj::fixpoint", "src/core/separators/codac_SepProj.h:ImpactStatus::reconstrut_v2"]}
{"id": "C90", "title": "The assertions of SepProj hold for a sound separator", "statement": "With a sound separator of Z, none of the assertions of SepProj (the hull of the two boxes is the initial box) fails during separate().", "quantifier": "For all dimensions, sets Z, sound separators, boxes, precisions, bisectors and numbers of turns.", "why_tests_cant": "An assertion only fails on some sequences of bisections; the tests that pass show nothing about the others.", "anchors": ["src/core/separators/codac_SepProj.cpp:SepProj::separate", "src/core/separators/codac_SepProj.cpp:SepProj::fixpoint", "src/core/separators/codac_SepProj.cpp:complementaryUnion", "src/core/separators/codac_SepProj.h:ImpactStatus::reconstrut_v2"]}
{"id": "C91", "title": "isInside is reliable after any calls to Sivia and Reunite", "statement": "After any sequence of calls to SepPaving::Sivia (with sound separators of a set S) and SepPaving::Reunite from an initial box, isInside answers YES only for points of S, NO only for points out of S, and EMPTY exactly for the points out of the initial box; reunite never fails and tells whether it simplified the tree.", "quantifier": "For all dimensions, sets S, sound separators, bisectors, precisions, initial boxes, sequences of calls and points.", "why_tests_cant": "The boxes of a node of the tree depend on the whole history of contractions, bisections and merges; a wrong answer needs a particular sequence of calls and a particular separator.", "anchors": ["src/unsupported/paving/codac_PSetNode_impl.cpp:PSetNode::reunite", "src/unsupported/paving/codac_PSetNode_impl.cpp:PSetNode::isInside", "src/unsupported/paving/codac_PSetNode_impl.cpp:PSetNode::removeNode", "src/unsupported/paving/codac_SepPaving.cpp:SepPaving::Sivia", "src/unsupported/paving/codac_SepPaving.cpp:SepPaving::Reunite"]}
{"id": "C92", "title": "A SepPaving is a separator of the set it was built from", "statement": "After any sequence of calls to SepPaving::Sivia and SepPaving::Reunite with sound separators of a set S, SepPaving::separate(x_in,x_out) contracts both boxes, removes from x_in only points of S and from x_out only points out of S.", "quantifier": "For all dimensions, sets S, sound separators, initial boxes, sequences of calls, and pairs of boxes given to separate.", "why_tests_cant": "separate classifies each box of a set difference from the answer at its middle point only: whether one point is enough depends on topology and on the whole tree, and the failing boxes are flat, or stick out of the paving.", "anchors": ["src/unsupported/paving/codac_SepPaving.cpp:SepPaving::separate", "src/unsupported/paving/codac_PSetNode_impl.cpp:PSetNode::isInside"]}
{"id": "C93", "title": "Sivia_ops gives a paving of the union or of the intersection", "statement": "After a call to SepPaving::Sivia_ops with a separator of T on the paving of S, isInside answers YES only for points of the union (resp. the intersection) of S and T, NO only for points out of it, and never EMPTY for a point of the initial box.", "quantifier": "For all dimensions, sets S and T, separators, bisectors, precisions, initial trees obtained by Sivia and Reunite, and points.", "why_tests_cant": "The call updates, cuts, empties or deletes existing nodes according to widths and flatness: the wrong answers occur on sets of measure zero or for widths equal to the precision.", "anchors": ["src/unsupported/paving/codac_SepPaving.cpp:SepPaving::Sivia_ops", "src/unsupported/paving/codac_PSetNode_impl.cpp:PSetNode::isInside"]}
{"id": "C94", "title": "CtcLohner keeps every solution of x' = f(x) contained in the tube", "statement": "For a differentiable vector field f with sound interval evaluations of f and of its Jacobian, CtcLohner::contract (forward, backward or both) removes no trajectory of the tube that is a solution of x' = f(x): after the call the tube still contains it, on the slices and at every gate.", "quantifier": "every dimension, vector field, inclusion functions, inflation parameter, number of contractions, slicing, tube with a bounded first gate, direction of propagation and solution in the tube", "why_tests_cant": "the guarantee is about all the solutions of an ODE (uncountably many), for every field and slicing; the losses appear only for gates that cut the enclosure in a direction which is not an axis of the QR frame, or by amounts of the size of a rounding error", "anchors": ["src/core/contractors/dyn/codac_CtcLohner.cpp:CtcLohner::contract", "src/core/contractors/dyn/codac_CtcLohner.cpp:LohnerAlgorithm::integrate", "src/core/contractors/dyn/codac_CtcLohner.cpp:LohnerAlgorithm::globalEnclosure", "src/core/contractors/dyn/codac_CtcLohner.cpp:LohnerAlgorithm::contractStep"]}
{"id": "C95", "title": "SepPolarXY separates the sector of a ring from its complement", "statement": "For a sector S = {(r cos t, r sin t): r in rho, r>=0, t in theta} and boxes x_in, x_out: separate() keeps in x_out every point of S that is in both boxes and keeps in x_in every point outside S that is in both boxes; both results are included in both given boxes.", "quantifier": "every rho, theta, pair of boxes and point of the plane", "why_tests_cant": "the points lost are on measure-zero sets (the origin, the axis of x with a single angle) or in the gap of width about 2.4e-16 rad left by the double M_PI opposite to the sector", "anchors": ["src/core/geometry/codac_SepPolarXY.cpp:SepPolarXY::separate", "src/core/geometry/codac_SepPolarXY.cpp:SepPolarXY::contractIn", "src/core/geometry/codac_SepPolarXY.cpp:SepPolarXY::contractOut"]}
{"id": "C96", "title": "PdcInPolygon::test tells whether the box is inside the polygon", "statement": "For a closed polygon and a box: YES implies that the polygon turns around each point of the box, NO that it turns around none of the points that are not on its border.", "quantifier": "every polygon, box, point of the box, sound interval arithmetic", "why_tests_cant": "the test looks at the middle of the box only; whether the answer holds for the other points depends on the position of the whole box relative to all edges", "anchors": ["src/core/geometry/codac_PdcInPolygon.cpp:PdcInPolygon::test", "src/core/geometry/codac_PdcInPolygon.cpp:PdcInPolygon::argument"]}
{"id": "C97", "title": "SepPolygon separates the inside of a polygon from its outside", "statement": "For a closed counter-clockwise polygon and boxes x_in, x_out: points of the border that are in both boxes stay in both, points around which the polygon does not turn stay in x_in, points around which it turns once stay in x_out; both results are included in both boxes.", "quantifier": "every polygon, pair of boxes, point, sound contractors on the edges and sound interval arithmetic", "why_tests_cant": "depends on the shape of the difference between the box and its contraction on the border; pavings with random boxes rarely cross a single edge parallel to an axis", "anchors": ["src/core/geometry/codac_SepPolygon.cpp:SepPolygon::SepPolygon", "src/core/geometry/codac_PdcInPolygon.cpp:PdcInPolygon::test"]}
{"id": "C98", "title": "CtcFunction on tubes keeps the trajectories of the constraint", "statement": "CtcFunction::contract on a vector of tubes keeps every trajectory x(.) of the tubes with f(x(t)) in [y] at all instants, and the resulting tubes are included in the given ones.", "quantifier": "all contractors CtcFwdBwd that keep the solutions of f(x) in [y], all vectors of tubes, all trajectories", "why_tests_cant": "Unit tests use a few tubes that all have the same slicing; the loop walks the slices of the tubes by rank without comparing their domains.", "anchors": ["src/core/contractors/static/codac_CtcFunction.cpp:CtcFunction::contract"]}
{"id": "C99", "title": "TubePolynomialSynthesis encloses the values of the tube", "statement": "For every tube whose polynomial synthesis has been built, every interval of time T and every t of T in the domain of the tube, the values of the trajectories of the tube at t belong to synthesis(T); and the synthesis of a bounded tube can be built.", "quantifier": "all tubes, all precisions eps, all least squares fits, all bisections, all intervals of time", "why_tests_cant": "The offset of each polynomial is computed from the bounds of the slices only; whether the polynomial stays outside the tube between two bounds depends on its curvature, for infinitely many instants.", "anchors": ["src/core/domains/tube/codac_TubePolynomialSynthesis.cpp:TubePolynomialTreeSynthesis::polynomial_factoredform", "src/core/domains/tube/codac_TubePolynomialSynthesis.cpp:TubePolynomialSynthesis::operator()"]}
{"id": "C100", "title": "ConnectedSubset::zero_proven: a topological degree that is not zero proves a zero of the function in the subset", "statement": "When zero_proven(f) is true on a connected subset of a paving whose leaves OUT are proven by f to have no zero, f being an inclusion function of a continuous function of the plane, the function has a zero in one of the boxes of the subset; the same when zeros_number is positive. In particular for the pavings computed by SIVIAPaving::compute(f,y,precision) with the same f.", "quantifier": "for all pavings, inclusion functions, continuous functions, connected subsets", "why_tests_cant": "The tests count the zeros of a few functions; the claim is a topological argument (winding of f along the boundary) over all continuous functions and all tilings of the plane by boxes.", "anchors": ["src/core/paving/codac_ConnectedSubset_degree.cpp:ConnectedSubset::zero_proven", "src/core/paving/codac_ConnectedSubset_degree.cpp:ConnectedSubset::topological_degree", "src/core/paving/codac_ConnectedSubset.cpp:ConnectedSubset::get_boundary", "src/core/paving/codac_Paving.cpp:Paving::get_pavings_intersecting"]}
{"id": "C101", "title": "codac2 CtcLinobs on tubes of polygons keeps the solutions of the linear system", "statement": "For x' = A x + b u with u in the given tube, CtcLinobs::contract on a Tube<ConvexPolygon> whose gates are defined keeps every solution that was in the tube, at all instants, with forward and/or backward propagation and with or without envelopes; it never dereferences a null slice; the polygons of the result are included in the initial ones.", "quantifier": "for all matrices, inputs, tubes with defined gates, solutions, choices of propagation", "why_tests_cant": "The solutions of a differential equation over all instants and all input signals are an infinite set; the tests look at one system with drawings. The exponential is evaluated at two instants only, so the claim depends on what it does between them.", "anchors": ["src/core/2/contractors/codac2_CtcLinobs.cpp:CtcLinobs::contract", "src/core/2/contractors/codac2_CtcLinobs.cpp:exp_At", "src/core/2/contractors/codac2_CtcLinobs.cpp:CtcLinobs::polygon_envelope", "src/core/2/domains/tube/codac2_Slice.h:Slice::set"]}
{"id": "C102", "title": "Products of a trajectory by a matrix and by a vector are exact at every instant", "statement": "A Matrix times a TrajectoryVector, and vecto_product of a TrajectoryVector and a Vector (either side), give a trajectory on the same temporal domain whose value at every instant, between the samples too, is the product of the value, whatever the sample times of the components are.", "quantifier": "for all matrices and vectors, all sampled vectors of trajectories on a common temporal domain with any sample times, all instants", "why_tests_cant": "The instants and the interleavings of the sample times of the components are infinite; the tests use components sampled together and square matrices.", "anchors": ["src/core/arithmetic/codac_traj_arithmetic_vector.cpp:operator*", "src/core/arithmetic/codac_traj_arithmetic_vector.cpp:vecto_product", "src/core/variables/trajectory/codac_TrajectoryVector.cpp:TrajectoryVector::set"]}
{"id": "C103", "title": "Conversions between codac and codac2 tubes keep the values at every instant", "statement": "to_codac1 turns a codac2 tube into a well-formed codac tube on the same temporal domain whose value at every instant, gates included, is the set of values common to all TSlices at that instant. to_codac2 gives back a tube on the same slicing with gates at all its bounds and the same values; both keep the set of trajectories, and so do round trips.", "quantifier": "for all partitions of a temporal domain in slices and gates, all codomains, all codac tubes, all instants and trajectories", "why_tests_cant": "Each set() overwrites or intersects the gates of the neighbouring slices, so the result depends on the interleaving of gates and slices; the tests convert a few regular tubes and compare a few values.", "anchors": ["src/core/2/domains/tube/codac2_Tube.cpp:to_codac1", "src/core/2/domains/tube/codac2_Tube.cpp:to_codac2", "src/core/domains/tube/codac_Tube.cpp:Tube::set"]}
{"id": "C104", "title": "Temporal functions of tubes enclose the image of every trajectory", "statement": "Evaluating a temporal function on a vector of tubes gives tubes with the same slicing that contain t -> f(t, x(t)) for every choice of trajectories x in the components. With an isotonic evaluation the result is well formed and its value is exactly the evaluation on each slice (time domain and codomains) and on each gate (instant and gates). A function evaluated on time intervals, such as a delay d, gives a tube containing every signal equal to x(t + d) whenever t + d is in the domain, and all the reals elsewhere.", "quantifier": "for all enclosures of functions, image dimensions, vectors of tubes, delays of any sign, trajectories and instants", "why_tests_cant": "The loops advance one pointer per component and test only the first one; tests use tubes built with the same slicing, a handful of expressions and one delay.", "anchors": ["src/core/functions/codac_TFunction.cpp:TFunction::eval_vector", "src/core/functions/codac_TFnc.cpp:TFnc::eval_vector", "src/core/functions/codac_DelayTFunction.cpp:DelayTFunction::eval_vector"]}
{"id": "C105", "title": "A contractor network used as a contractor keeps the solutions, whatever was done before", "statement": "A CtcCN built on a network with a vector of variables, intermediate variables and other domains contracts a box without removing any point that can be completed with values of the intermediate variables (in their initial domains) and of the other domains (in their current values) so as to satisfy all the constraints. It only contracts the box, changes no memory but that of the domains of the network, and leaves the variables referring to their own memory. If every domain reached is a variable or an intermediate variable, the result depends on the values of the box only: not on the previous calls, interrupted or not, nor on where the box is in memory.", "quantifier": "for all networks over intervals and interval vectors, histories of calls, writes and resets, boxes and moments of interruption", "why_tests_cant": "The state left by a call (references, saved volumes, active contractors, values of the intermediate variables) matters only for the next calls; tests make one or two calls on one network.", "anchors": ["src/core/cn/codac_ContractorNetwork_solve.cpp:ContractorNetwork::contract", "src/core/cn/codac_ContractorNetwork_solve.cpp:ContractorNetwork::reset_interm_vars", "src/core/cn/codac_ContractorNetwork_solve.cpp:ContractorNetwork::replace_var_by_dom", "src/core/contractors/static/codac_CtcCN.cpp:CtcCN::contract", "src/core/cn/codac_Domain.cpp:Domain::set_ref_values"]}
{"id": "C106", "title": "Tubes and trajectories built from a temporal function enclose it", "statement": "Tube(tdomain, dt, f) and TubeVector(tdomain, dt, f) give tubes that contain f over the whole temporal domain, with slices of width dt (the last one possibly smaller, a single one if dt = 0); the value on a slice is the evaluation of f on the temporal domain of the slice, and the value at a gate its evaluation at that instant. Tube(x, f) gives the same with the slicing of x. Evaluating f on a vector of trajectories gives f(t, x(t)) at every sample time of x.", "quantifier": "for all functions with an inclusion isotonic evaluation, temporal domains, timesteps, indices, tubes giving the slicing, and vectors of trajectories with any sample times", "why_tests_cant": "Tests compare drawings or a few values for one function and one timestep; the copy of the tube passed as an argument only gives the slicing, which hides that its values matter (an empty one), and trajectories of tests share their sample times.", "anchors": ["src/core/domains/tube/codac_Tube.cpp:Tube::Tube", "src/core/domains/tube/codac_TubeVector.cpp:TubeVector::TubeVector", "src/core/functions/codac_TFunction.cpp:TFunction::traj_eval_vector"]}
{"id": "C107", "title": "The operators of vectors of tubes act componentwise on trajectories", "statement": "If the components of x hold the trajectories f_i and those of y hold g_i, then x+y, x-y, x*y (scalar operands), x/y, -x, abs(x), x+=y, x-=y, x*=y, x/=y hold the trajectories obtained by applying the operation to f_i and g_i, for operands that are tubes, vectors of tubes, boxes, intervals or trajectories; x&y holds exactly the trajectories of both, x|y those of each. This includes v op= v[j], for vectors of tubes and of trajectories.", "quantifier": "every vector, operand (also taken in the vector itself) and enclosing interval operation", "why_tests_cant": "all vectors, slicings and operands; an operand that is a component of the vector changes during the loop", "anchors": ["src/core/arithmetic/codac_tube_arithmetic_vector.cpp:operator-", "src/core/domains/tube/codac_TubeVector_operators.cpp:TubeVector::operator-=", "src/core/variables/trajectory/codac_TrajectoryVector_operators.cpp:TrajectoryVector::operator-="]}
{"id": "C108", "title": "The operators of slices and the gates they share", "statement": "s += d (and the other assignment operators) on a slice s of a tube holding f makes this slice hold f+d; applied to each slice of a tube in turn it makes the tube hold f+d.", "quantifier": "every tube, slice and operation", "why_tests_cant": "all tubes; the gate between two slices belongs to both", "anchors": ["src/core/domains/slice/codac_Slice_operators.cpp:Slice::operator+="]}
{"id": "C109", "title": "Inverting a vector of tubes as one interval", "statement": "TubeVector::invert(y, search) and invert(y, v, search) return an interval inside the search domain that contains every instant of it at which a trajectory of the vector (with derivative in v) has its value in the box y; the result is empty if on every slice some component misses its interval.", "quantifier": "every vector of tubes, box, search domain (instants included), derivative tube and trajectories", "why_tests_cant": "all slicings and search domains; two loops stop at the first slice found and the slices in between are never looked at; components with different slicings are accepted", "anchors": ["src/core/domains/tube/codac_TubeVector.cpp:TubeVector::invert"]}
{"id": "C110", "title": "Memory of tubes: slices, shared gates and pointers", "statement": "Any sequence of constructions, copies, assignments, samplings, gate removals, value updates and destructions of Tube objects runs without null or dangling access and without double delete; at each step the slices and the gates allocated are exactly those of the live tubes, two tubes never share one, two neighbouring slices share exactly one gate, and the values are those of the abstract list of slices; once all tubes are destroyed nothing is left allocated.", "quantifier": "every sequence of calls on any number of tube objects with any number of slices, every assignment (self-assignment, default-constructed source) of tubes and vectors of tubes", "why_tests_cant": "unbounded histories of pointer updates; dangling pointers, double deletes and leaks often stay silent in a test run", "anchors": ["src/core/domains/tube/codac_Tube.cpp:Tube::operator=", "src/core/domains/tube/codac_Tube.cpp:Tube::sample", "src/core/domains/tube/codac_Tube.cpp:Tube::remove_gate", "src/core/domains/tube/codac_TubeVector.cpp:TubeVector::operator=", "src/core/domains/slice/codac_Slice.cpp:Slice::chain_slices", "src/core/domains/slice/codac_Slice.cpp:Slice::merge_slices", "src/core/domains/slice/codac_Slice.cpp:Slice::~Slice"]}
{"id": "C111", "title": "Life of the synthesis objects of a tube and their references to slices", "statement": "Any sequence of calls on Tube objects, among them enable_synthesis, truncate_tdomain, merge_similar_slices and those of C110, runs without access to deleted slices or trees; the tree of a tube refers to exactly its slices and each slice refers back to it; slice(t), slice(k) and nb_slices() answer the same with and without a tree; each tree or polynomial synthesis allocated belongs to one tube, and nothing is left once all tubes are destroyed.", "quantifier": "every sequence of calls on any number of tubes with any number of slices, in every synthesis mode", "why_tests_cant": "dangling references between trees and slices depend on the order of calls and stay silent in a run; unbounded histories", "anchors": ["src/core/domains/tube/codac_Tube.cpp:Tube::operator=", "src/core/domains/tube/codac_Tube.cpp:Tube::enable_synthesis", "src/core/domains/tube/codac_Tube.cpp:Tube::create_synthesis_tree", "src/core/domains/tube/codac_Tube.cpp:Tube::truncate_tdomain", "src/core/domains/tube/codac_Tube.cpp:Tube::remove_gate", "src/core/domains/tube/codac_Tube.cpp:Tube::merge_similar_slices", "src/core/domains/tube/codac_TubeTreeSynthesis.cpp:TubeTreeSynthesis::~TubeTreeSynthesis", "src/core/domains/slice/codac_Slice.cpp:Slice::set_envelope"]}
{"id": "C112", "title": "CtcHull gives the hull of the points of a box that belong to a set known by a separator", "statement": "CtcHull::contract(box) keeps every point of box that belongs to the set described by its separator and adds no point outside box. The result is the smallest box that contains these points and the boxes of width at most epsilon that the separator could not decide; when every such box meets the set, every point of the result is at distance at most epsilon, component by component, of the exact hull. The call ends on every bounded box for every epsilon > 0.", "quantifier": "every separator that is sound for a set, every box of every dimension, every precision", "why_tests_cant": "the boxes explored depend on the separator and on the bisections; soundness, optimality and termination are about all of them", "anchors": ["src/unsupported/separators/codac_CtcHull.cpp:CtcHull::contract"]}
{"id": "C113", "title": "SepUnionBbox separates the union of sets guarded by bounding boxes", "statement": "When every bounding box given to SepUnionBbox contains the part of its set that lies in the box, separate() is a separator of the union of the sets: points of the union are only removed from x_in, the other points only from x_out, and no point is removed from both. A box that meets no bounding box is entirely outside: x_in is unchanged and x_out empty. With fewer bounding boxes than separators the call is undefined, and with a bounding box that is too small a point of the union can be removed from x_out.", "quantifier": "every list of separators and bounding boxes, every box", "why_tests_cant": "soundness is about every point of every box for every list of separators", "anchors": ["src/unsupported/separators/codac_SepUnionBbox.cpp:SepUnionBbox::separate"]}
{"id": "C114", "title": "Volume of tubes; widest, thickest and steepest slices; overlaps", "statement": "For a tube that contains a trajectory, volume() is the largest difference between the integrals of two of its integrable trajectories over the domain; it is infinite exactly when a codomain is unbounded, it does not grow when trajectories are removed and sampling leaves it unchanged; a strictly smaller set of trajectories can have the same volume when only a gate was contracted. max_diam() is the least bound of the distance between two trajectories at one instant. largest_slice() and wider_slice() are the first slices of largest codomain and of longest domain, steepest_slice() a slice whose gates have the largest slope, max_gate_diam() the width and an instant of the widest gate. Two tubes sharing a trajectory overlap for every ratio up to 1, and tubes that overlap with ratio 1 share a trajectory.", "quantifier": "every tube, every slicing, every pair of trajectories, every overlapping ratio up to 1", "why_tests_cant": "the volume and the largest width are extrema over all the trajectories of a tube, an uncountable set", "anchors": ["src/core/domains/tube/codac_Tube.cpp:Tube::volume", "src/core/domains/tube/codac_Tube.cpp:Tube::wider_slice", "src/core/domains/tube/codac_Tube.cpp:Tube::largest_slice", "src/core/domains/tube/codac_Tube.cpp:Tube::steepest_slice", "src/core/domains/tube/codac_Tube.cpp:Tube::max_diam", "src/core/domains/tube/codac_Tube.cpp:Tube::max_gate_diam", "src/core/domains/tube/codac_Tube.cpp:Tube::index", "src/core/domains/tube/codac_Tube.cpp:Tube::overlaps", "src/core/domains/tube/codac_TubeVector.cpp:TubeVector::volume", "src/core/domains/tube/codac_TubeVector.cpp:TubeVector::max_gate_diam", "src/core/domains/tube/codac_TubeVector.cpp:TubeVector::steepest_slice", "src/core/domains/slice/codac_Slice.cpp:Slice::volume"]}
{"id": "C115", "title": "Thickness of tubes as trajectories: diam(), diam(v), diag()", "statement": "For a tube of bounded codomains whose slices contain doubles strictly inside, diam() is a trajectory over the domain of the tube whose value inside a slice is the width of the codomain; with gates_thicknesses its value at each bound is the width of the gate, otherwise it lies between the widths of the neighbouring codomains. At every instant that is not in a gap between a bound and the next double, two trajectories of the tube are at most diam() apart. diag(i,j) of a vector gives at each instant of diam() of the first component the diagonal of the box of the thicknesses of components i to j. diam(v), the thickness knowing the derivative, is a trajectory over the domain of the tube.", "quantifier": "every tube, every slicing, every instant, every pair of trajectories of the tube", "why_tests_cant": "bounds the distance of all pairs of trajectories at all instants; tests compare a few samples", "anchors": ["src/core/domains/tube/codac_Tube.cpp:Tube::diam", "src/core/domains/tube/codac_TubeVector.cpp:TubeVector::diam", "src/core/domains/tube/codac_TubeVector.cpp:TubeVector::diag"]}
{"id": "C116", "title": "Contractions of slices, tubes and tube vectors are noticed by the contractor network", "statement": "With a fixed point ratio of 0, every contraction of a domain with finite bounds (slice, tube or tube vector: same slicing, some codomain or gate made strictly smaller, an emptied part not being a single value) decreases Domain::compute_volume in the sense of the test of the network, so that the contractors of the domain are triggered again; a domain that did not change is never reported. The volume of a slice domain is infinite exactly when its codomain is unbounded. A contraction of a domain that has an unbounded part left, and a single value that becomes empty, are noticed as well.", "quantifier": "every pair of nested slices, tubes and tube vectors on the same slicing", "why_tests_cant": "any missed contraction silently stops the propagation; all sizes and places of contractions matter", "anchors": ["src/core/cn/codac_Domain.cpp:Domain::compute_volume", "src/core/cn/codac_ContractorNetwork_solve.cpp:ContractorNetwork::trigger_ctc_related_to_dom"]}
{"id": "C117", "title": "Networks of intervals, tubes and tube vectors stop at a fixed point when the ratio is 0, not with the default ratio", "statement": "In a contractor network whose domains are bounded intervals, tubes and tube vectors, with set_fixedpoint_ratio(0), whatever the sequence of add, contract (interrupted or not) and trigger calls, if no domain has an empty part and no contractor is waiting in the queue, then calling any contractor of the network changes none of the domains (for contractors that contract, are idempotent, give valid domains and depend on their own domains only). With the default ratio 0.0001 this does not hold: the network can stop while one of its contractors still has values to remove.", "quantifier": "every network, every list of calls, every initial content of the domains", "why_tests_cant": "the claim is about all graphs, all orders of contraction and all interruptions; a missed trigger shows only on particular sequences", "anchors": ["src/core/cn/codac_ContractorNetwork_solve.cpp:ContractorNetwork::contract", "src/core/cn/codac_ContractorNetwork_solve.cpp:ContractorNetwork::trigger_ctc_related_to_dom", "src/core/cn/codac_Domain.cpp:Domain::compute_volume"]}
{"id": "C118", "title": "Ray casting on walls", "statement": "Wall::contains tells whether a point is on the segment of the wall. The operator & of two walls that are not parallel is the only point common to their lines. shorter_dist_to_walls is the distance from p, in the direction of the bearing, to the first wall met within 999999, and is infinite when no wall is met within this distance. shorter_contact_to_walls returns the distance and the bearing of the closest of the walls met around p.", "quantifier": "every list of walls, point and bearing", "why_tests_cant": "walls aligned with the ray, points out of the line of the wall and walls between two sampled bearings are special configurations among infinitely many", "anchors": ["src/robotics/objects/codac_Wall.cpp:Wall::contains", "src/robotics/objects/codac_Wall.cpp:operator&", "src/robotics/objects/codac_Wall.cpp:shorter_dist_to_walls", "src/robotics/objects/codac_Wall.cpp:shorter_contact_to_walls"]}
{"id": "C119", "title": "Text of one component of a function", "statement": "TFunction::expr(i) returns the text of the i-th component of the function, without the spaces around it. This holds for an expression (e0;e1;...) written with parentheses, whose components contain no semicolon. It does not hold otherwise: a scalar expression written without parentheses loses its first and last characters, the component f[i] answers with the text of the whole function cut as a scalar one, and for a function made from a function of IBEX only expr(0) returns.", "quantifier": "every expression, every dimension, every index, any spaces", "why_tests_cant": "the tests call expr on one vector function only; the cut of the characters depends on the form of the text", "anchors": ["src/core/functions/codac_TFunction.cpp:TFunction::expr", "src/core/functions/codac_TFunction.cpp:TFunction::operator[]", "src/core/functions/codac_TFunction.cpp:to_string", "src/core/tools/codac_Tools.cpp:Tools::trim"]}
{"id": "C120", "title": "Replacement of the occurrences of a string", "statement": "Tools::replace_all replaces, from left to right, the occurrences of a non empty string that do not overlap, looks no more into the text put in place, and always ends (at most one iteration more than the length of the input). With an empty string to look for it never ends.", "quantifier": "every input, every searched string, every replacement (also one that contains the searched string)", "why_tests_cant": "termination and the absence of a rescan of the replaced text concern all strings", "anchors": ["src/core/tools/codac_Tools.cpp:Tools::replace_all"]}
{"id": "C121", "title": "Random trajectories stay within their bounds and cover the temporal domain", "statement": "RandTrajectory(tdomain, timestep, bounds) never fails an assertion for a bounded non degenerate temporal domain, a positive time step and bounded non empty bounds. It has one sample, with one draw, at each time t0, t0+timestep, t0+2*timestep, ... before tf, and one at tf. It is defined exactly on the temporal domain, its values are within the bounds, and its codomain is the smallest interval that contains the values taken. A draw u of [0,1] gives the value lb+u*diam.", "quantifier": "every temporal domain, time step, bounds and every sequence of draws", "why_tests_cant": "the constructor draws random numbers: a test sees a few sequences only; the last sample depends on the division of the domain by the time step", "anchors": ["src/core/variables/trajectory/codac_RandTrajectory.cpp:RandTrajectory::RandTrajectory", "src/core/tools/codac_Tools.cpp:Tools::rand_in_bounds"]}
{"id": "C122", "title": "The separator of the poses that see a landmark in a sector loses no pose in both boxes", "statement": "SepPolarXYT::separate only shrinks its two boxes. The outer box keeps every pose (x,y,heading) that sees the landmark at a distance of rho with a bearing of theta (modulo a turn), and the inner box keeps every pose that does not; hence each pose of both boxes is in one of the results. Exact pi; whatever the value of M_PI, the outer box is right for the directions in the range of atan2. The pose at the landmark itself can be lost by both boxes.", "quantifier": "every sector (also unbounded or wider than a turn), every landmark, every pair of boxes, every implementation of the operations of IBEX that meets its contract", "why_tests_cant": "the four complementary sectors and the modulo of the angles must cover all the poses; no test exists for this class", "anchors": ["src/unsupported/geometry/codac_SepPolarXYT.cpp:SepPolarXYT::contract", "src/unsupported/geometry/codac_SepPolarXYT.cpp:SepPolarXYT::contractIn", "src/unsupported/geometry/codac_SepPolarXYT.cpp:SepPolarXYT::contractOut", "src/unsupported/geometry/codac_SepPolarXYT.cpp:SepPolarXYT::separate"]}
{"id": "C123", "title": "Conversions of colors between RGB and HSV", "statement": "For a color whose channels are between 0 and 1, rgb2hsv gives a hue of [0,360[, a saturation and a value between 0 and 1, and hsv2rgb(rgb2hsv(c)) = c, unless all the channels are closer than 0.00001: the result is then the grey of the largest channel. hsv2rgb gives channels between 0 and 1.", "quantifier": "every color", "why_tests_cant": "six sextants with their borders, for all real channels; there is no test of the colors", "anchors": ["src/core/graphics/codac_colors.cpp:rgb2hsv", "src/core/graphics/codac_colors.cpp:hsv2rgb"]}
{"id": "C124", "title": "Interpolation in a color map", "statement": "For a color map of at least two valid colors and a ratio between 0 and 1, color(r) fails no assertion and returns a valid color, in both modes; the ratios 0 and 1 give the first and the last colors. In RGB mode the color is at its place on the segment between the two neighbours. In HSV mode the hue goes along the shortest arc between the two hues, unless the first one exceeds the second one by more than 180 degrees: the hue then goes more than once around the circle.", "quantifier": "every color map, every ratio, both modes", "why_tests_cant": "the failure depends on the order of the hues of two neighbours; there is no test of the color maps", "anchors": ["src/core/graphics/codac_ColorMap.cpp:ColorMap::color", "src/core/graphics/codac_colors.cpp:make_rgb", "src/core/graphics/codac_colors.cpp:make_hsv"]}
{"id": "C125", "title": "Entries, reversal and opacity of color maps", "statement": "add_color_point gives its color to the key and changes no other entry. reverse() keeps the colors of a map and moves the key k to 1-k. In RGB mode the color of the reversed map at a ratio r is the color of the map at 1-r; in HSV mode it may be another color. set_opacity changes the opacities only, and asserts an opacity between 0 and 1; is_opaque holds if and only if all the opacities are 1.", "quantifier": "every color map, every ratio", "why_tests_cant": "equality of two interpolations for all the maps and ratios; there is no test of the color maps", "anchors": ["src/core/graphics/codac_ColorMap.cpp:ColorMap::add_color_point", "src/core/graphics/codac_ColorMap.cpp:ColorMap::reverse", "src/core/graphics/codac_ColorMap.cpp:ColorMap::set_opacity", "src/core/graphics/codac_ColorMap.cpp:ColorMap::is_opaque"]}
