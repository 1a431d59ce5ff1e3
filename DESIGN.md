# Formal model of kami in Coq 8.16

## Approach

The crate is modelled function by function as total Gallina functions.  Every
floating-point operation goes through one record of operations, `Ops`
(`theories/Scalar.v`), so that the *same* model text is run in three worlds:

| instance | scalars | used for |
|---|---|---|
| `FO libm` | IEEE-754 binary32, round-to-nearest-even, one NaN (Flocq `BinarySingleNaN`, prec 24, emax 128); `sin`/`cos`/`acos` arbitrary functions `libm` | bit-exact claims about `f32`, refutations by `vm_compute` |
| `XO` | exact reals plus one "not a finite number" value (`option R`); division by 0 and sqrt of a negative give `None`, comparisons with `None` are false | geometric correctness of functions that divide or take roots |
| `RO` | exact reals `R` | functions that never divide (polygon predicates, triangulation), rotors |

Combinatorial claims (graph bookkeeping, triangulation bookkeeping) are proved for **every** `Ops`
record, hence for f32 whatever its rounding does.  Claims that need only an order are proved for
every `Ops` satisfying `Laws` (`theories/Laws.v`), instantiated for f32 and `XO`.  Algebraic
claims about vectors and rotors are proved for every commutative ring.

Panics (`unwrap` on None, index out of bounds, checked subtraction, division by
zero, `unimplemented!`) are the explicit value `Panic`; the model is that of a debug build
(overflow checks on) except in `Blade.v`, where both profiles and any word width are modelled.
The only loop of the crate that may diverge, `triangulate`'s `while`, takes fuel and returns
`None` when it runs out; theorems either say how much fuel suffices or quantify over all fuel.

### Files

| model (no proofs) | source | specification | proofs | theorems |
|---|---|---|---|---|
| `Scalar.v` | f32, sqrt, sin, cos, acos | | `F32.v`, `Laws.v` | |
| `Utils.v` | `geometry/utils.rs`, nalgebra-glm calls | `PlaneSpec.v`, `ListSpec.v` | `Closest.v`, `UtilsReal.v`, `UtilsF32.v`, `GridUtils.v`, `GridSeg.v`, `GridPrim.v`, `GridOn.v` | `Properties_Utils.v`, `Properties_GridGraph.v` |
| `Graph.v` | `graph/planar_graph.rs` | `GraphSpec.v`, `ListSpec.v`, `PlanarSpec.v`, `GridSpec.v`, `DrawSpec.v` | `GraphAdd.v`, `GraphAddProps.v`, `GraphRemove.v`, `GraphHistory.v`, `GraphDemo.v`, `GraphPlanar.v`, `GraphReport.v`, `PlanarDemo.v`, `GraphSim.v`, `GridGraph.v`, `GridInst.v`, `GridCheck.v`, `Draw.v` | `Properties_Graph.v`, `Properties_Planar.v`, `Properties_GridGraph.v`, `Properties_Draw.v` |
| `Polygon.v` | `geometry/polygon.rs` | `PolySpec.v`, `SimpleSpec.v` | `PolyArea.v`, `PolyRegular.v`, `PolyDiag.v`, `PolyTri.v`, `PolyConvex.v`, `PolyF32.v`, `PolyNewF32.v`, `Winding.v`, `Simple*.v` | `Properties_Polygon.v`, `Properties_Simple.v`, `Properties_Grid.v` |
| `GA.v`, `Approx.v` | `math/{vector,bivector,trivector,rotor}.rs`, approx 0.3.2 | `GASpec.v` | `GARing.v`, `GAReal.v`, `GAF32.v`, `ApproxProofs.v` | `Properties_Math.v` |
| `Format.v` (f32, f64, any format) | `T: Float` of `math/*.rs` | `RoundSpec.v`, `GASpec.v`, `AngleSpec.v` | `Rounding.v`, `GARound.v`, `NormRound.v`, `LenReal.v`, `InvRound.v`, `RotRound.v`, `FromRound.v`, `BitRound.v`, `ProdRound.v`, `RoundDemo.v`, `AngleRound.v` | `Properties_Round.v`, `Properties_Angle.v` |
| the same in f32 with rounding | `geometry/*.rs`, `graph/*.rs` | `GeoSpec.v`, `ConsSpec.v`, `IncSpec.v`, `RegSpec.v`, `MarginSpec.v`, `SimSpec.v` | `NearCalc.v`, `GeoRound.v`, `GeoOn.v`, `GeoPoly.v`, `GeoArea.v`, `GeoSeg.v`, `GeoGraph.v`, `GeoCons.v`, `GeoFoot.v`, `GeoLine.v`, `GeoInc.v`, `GeoRad.v`, `GeoPar.v`, `GeoAxis.v`, `GeoBis.v`, `GeoReg.v`, `GeoRegPoly.v`, `LineRound.v`, `TransRound.v`, `MarginReal.v`, `MarginSeg.v`, `MarginGraph.v`, `MarginAdd.v`, `MarginHist.v`, `Follow.v`, `MarginSim.v`, `Drift.v`, `MarginDrift.v`, `CalmCheck.v`, `SimOrder.v` | `Properties_Geo.v`, `Properties_Cons.v`, `Properties_Inc.v`, `Properties_Par.v`, `Properties_Reg.v`, `Properties_LineF.v`, `Properties_Trans.v`, `Properties_Margin.v`, `Properties_Sim.v` |
| both under symmetries of the plane | `geometry/*.rs`, `graph/*.rs` | `IsoSpec.v` | `MoveSim.v`, `IsoReal.v`, `SymF32.v`, `SymMove.v`, `PolyMove.v`, `PolyIso.v` | `Properties_Iso.v` |
| repeating and undoing calls | `graph/*.rs` | `GraphSpec.v`, `PlanarSpec.v` | `Undo.v` | `Properties_Undo.v` |
| sizes of drawings | `graph/*.rs` | `PlanarSpec.v`, `DrawSpec.v`, `SimSpec.v` | `Size.v`, `SizeAny.v` | `Properties_Size.v` |
| edges through existing nodes | `graph/*.rs` | `PlanarSpec.v`, `ThroughSpec.v` | `Through.v` | `Properties_Through.v` |
| unit rotors and rotations | `math/*.rs` | `SpinSpec.v` | `Spin.v` | `Properties_Spin.v` |
| drawing through nodes, histories | `graph/*.rs` | `GridThroughSpec.v`, `ThroughSpec.v` | `GridThrough.v`, `GridThroughCheck.v` | `Properties_GridThrough.v` |
| sequences of removals | `graph/planar_graph.rs` | `RemovalSpec.v` | `Removal.v` | `Properties_Removal.v` |
| building a graph again | `graph/planar_graph.rs` | `RebuildSpec.v` | `Rebuild.v` | `Properties_Rebuild.v` |
| adding in any order | `graph/planar_graph.rs` | `AnyOrderSpec.v` | `AnyOrder.v`, `AnyOrderCheck.v` | `Properties_AnyOrder.v` |
| calls as operations on point sets | `graph/planar_graph.rs` | `MeaningSpec.v` | `Meaning.v`, `MeaningCheck.v` | `Properties_Meaning.v` |
| the same off the grids | `graph/planar_graph.rs` | `MeaningSpec.v`, `SimSpec.v` | `MeaningMargin.v` | `Properties_MeaningMargin.v` |
| edges along existing edges | `graph/*.rs` | `PlanarSpec.v`, `ThroughSpec.v` | `Over.v` | `Properties_Over.v` |
| edges running through nodes | `graph/*.rs` | `LooseSpec.v`, `GridLooseSpec.v` | `Loose.v`, `GridLoose.v`, `GridLooseCheck.v` | `Properties_Loose.v` |
| removals there | `graph/*.rs` | `LooseRemoveSpec.v` | `LooseRemove.v`, `GridLooseRemove.v` | `Properties_LooseRemove.v` |
| order of drawing there | `graph/*.rs` | `LooseOrderSpec.v` | `LooseOrder.v` | `Properties_LooseOrder.v` |
| when drawings stay planar in f32 | `graph/*.rs` | `GridOverSpec.v` | `GridOver.v` | `Properties_GridOver.v` |
| when drawings stay planar in exact arithmetic | `graph/*.rs` | `StaysSpec.v` | `Stays.v` | `Properties_Stays.v` |
| loops | `graph/*.rs` | `LoopsSpec.v` | `Loops.v` | `Properties_Loops.v` |
| edges of infinite or NaN length | `graph/*.rs` | `FrozenSpec.v` | `Frozen.v` | `Properties_Frozen.v` |
| data and labels | `graph/*.rs` | `CarrySpec.v` | `Carry.v` | `Properties_Carry.v` |
| unmet edges | `graph/*.rs` | `FrameSpec.v` | `Frame.v` | `Properties_Frame.v` |
| removals and positions | `graph/*.rs` | `BlindSpec.v` | `Blind.v` | `Properties_Blind.v` |
| order of the edge slots | `graph/*.rs` | `ShuffleSpec.v` | `Shuffle.v` | `Properties_Shuffle.v` |
| direction of the edges | `graph/*.rs` | `DirectionSpec.v` | `Direction.v` | `Properties_Direction.v` |
| nodes that add_edge makes | `graph/*.rs`, `geometry/utils.rs` | `NewNodesSpec.v` | `NewNodes.v` | `Properties_NewNodes.v` |
| helpers under symmetries of the plane | `geometry/utils.rs`, `geometry/polygon.rs` | `IsoSpec.v`, `HelperSpec.v` | `HelperSym.v`, `HelperIso.v` | `Properties_Helper.v` |
| `Line.v` | `geometry/line.rs` | `GASpec.v` | `LineProofs.v`, `GAF32.v` | `Properties_Line.v` |
| `Blade.v` | `math/blade.rs` | in `Properties_Blade.v` (Pascal's triangle) | `BladeProofs.v` | `Properties_Blade.v` |
| `Fold.v` | `fold/fold.rs`, serde derive | `FoldSpec.v` | `FoldProofs.v` | `Properties_Fold.v` |

Specification files mention neither the model's helper functions nor its control flow: segments
are `exists t, 0 <= t <= 1`, the interior of a polygon is a non-zero winding number, the products of
`src/math` are compared with an 8-dimensional Clifford algebra built from blade bitmasks, FOLD
documents are described by a relation between JSON values and field values.

## Wrong programs (`seeded/LOG.jsonl`)

Each line is one edit to a definition, made in a scratch copy.  `theorems_failed` lists the property theorems
whose proofs, or lemmas they rest on, no longer go through after the edit.  That shows the proof depends on the edited
text; it is not in itself a proof that the statement became false (edits noted as equivalent also break proof scripts).
A `log` field means part of the copy was not rebuilt; the note then says what was concluded instead.

## Trusted base

* The Coq 8.16.1 kernel (including `vm_compute`) and `coqchk`.
* Axioms: only those of the Coq standard library, introduced by its real numbers and by Flocq's use of
  them: `ClassicalDedekindReals.sig_forall_dec`, `ClassicalDedekindReals.sig_not_dec`,
  `Classical_Prop.classic`, `FunctionalExtensionality.functional_extensionality_dep`.  The list
  after each theorem below is the output of `Print Assumptions`, which each `Properties_*.v` runs.
  There is no axiom, parameter or section-less variable of our own, and none from another library.
  A listing per loaded module (`coqchk -o`) also names the standard library's opaque module fields,
  which are defined there, not assumed: `Coq.Reals.Rdefinitions.RbaseSymbolsImpl.` `R`, `Rabst`, `Rrepr`,
  `Rquot1`, `Rquot2`, `R0`, `R0_def`, `R1`, `R1_def`, `Rplus`, `Rplus_def`, `Rmult`, `Rmult_def`, `Ropp`,
  `Ropp_def`, `Rlt`, `Rlt_def`; `Coq.Reals.Rdefinitions.RinvImpl.` `Rinv`, `Rinv_def`;
  `Coq.ssr.ssrunder.Under_rel.` `Under_rel`, `Under_rel_from_rel`, `Under_relE`, `Over_rel`, `over_rel`,
  `over_rel_done`, `under_rel_done`.
* The transcription of Rust into Gallina.  Every definition of a model file cites file and lines.
  `CrateTests.v` evaluates the crate's unit tests and the library calls of its two example programs in the model (the crate itself was not run); its header lists where a test had to be changed.
* These facts about code outside `/repo`, which is not available as text here:
  nalgebra-glm `distance(a,b)` = sqrt of the sum of squares of `b-a`, `epsilon()` = `f32::EPSILON` =
  2^-23, `normalize_dot`, componentwise vector operations; `iter().sum()` folds from zero from the left;
  `powf(x, 2.0)` = `x*x`; `f32::MAX` = (2^24-1)*2^104; `sqrt` is correctly rounded (IEEE);
  approx 0.3.2's `abs_diff_eq`, `relative_eq`, `ulps_eq` for f32; serde/serde_json's derived code for
  structs with `rename`, `skip`, `default`; `usize::pow`'s overflow check.
* `libm` functions (`sin`, `cos`, `acos`) are arbitrary: theorems in f32 and f64 hold for every choice; only C114, C115 and C117 assume accuracy (explicit hypotheses `accurate_libm`, `accurate_trig`: absolute error at most 2u for sin and cos on a stated interval; Rust specifies no precision).

### Modelled

Every function of `geometry/{utils,polygon,line}.rs`, `graph/planar_graph.rs`,
`math/{vector,bivector,trivector,rotor,blade}.rs` and `fold/fold.rs`, private ones included.

### Not modelled, and simplifications

* `src/origami/*` (enums, empty functions, `unimplemented!()` bodies), `math/space.rs` (trait
  declarations only), `lib.rs`/`mod.rs` (module lists): nothing to prove.  `examples/` (a WebGL client of the
  library, compiled separately) is not part of the crate's API.
* `println!` output; the text of labels written by `Edge::new` is kept, the text of panic messages is not.
* `Attitude`/`Orientation` of `math/blade.rs`: a trait without implementations.
* Text-level JSON: lexing, printing and decimal/binary conversion of floats.  A JSON number is either
  an integer literal or "the f32 it is read as".
* File system: `from_file` takes "unreadable", "not JSON" or a JSON value.
* NaN payloads and signs (Rust does not specify them either).
* `HashMap` in `remove_node` is an association list looked up by key; its iteration order is never used.
* Memory, time and stack limits; `Vec` lengths beyond `usize`.
* Generic `T: Float` code of `src/math` is instantiated at f32, at any binary format (f64 among them, C92-C98) and at exact scalars.  Only binary floating-point types are considered.

## Per property

Status as in MANIFEST.json.  "Modelled" names the arithmetic (any = every `Ops` record; lawful = every `Ops` with `Laws`, which covers f32 with NaN and infinities, and exact arithmetic).  After each theorem: the axioms `Print Assumptions` reports (S = `sig_forall_dec`, N = `sig_not_dec`, C = `classic`, F = `functional_extensionality_dep`, all from the Coq standard library; "none" = closed under the global context).

### C01 Edge endpoints always name existing nodes — proved
Modelled: any. Invariant `valid` (all endpoints below the node count) kept by each operation, induction over operation lists from `graph_new`.

Theorems: `C01_edge_endpoints_exist` (none).

### C02 No two nodes closer than epsilon — proved
Modelled: lawful, instantiated for f32 and exact. `add_node` is the only place that appends a node, after `find_closest_to` said no node is nearer than epsilon; needs the distance to be symmetric (proved bitwise in f32).

Theorems: `C02_nodes_apart` (S N C F), `C02_nodes_apart_exact` (S N C F).

### C03 add_node reuses or appends — proved
Modelled: any (the closeness side by `Laws`). Case analysis on `find_closest_to`, with C20's characterisation.

Theorems: `C03_add_node_reuses_or_appends` (S N C F).

### C04 add_node splits exactly the touched edges — proved
Modelled: any. The splitting loop is shown equal to a declarative description of slots (`GraphSpec`).

Theorems: `C04_add_node_splits_exactly` (none).

### C05 Adding never panics — proved
Modelled: any. The loops only index nodes and edges known to exist; the invariant of C01 discharges every `index`.

Theorems: `C05_adding_never_panics` (none).

### C06 add_edge rejects and ignores cleanly — proved
Modelled: any. Case analysis; `has_edge_between_nodes` is related to existence of an edge in either direction.

Theorems: `C06_add_edge_rejects_and_ignores` (none).

### C07 add_edge reports exactly the new nodes — proved
Modelled: any. Induction over the list of intersection points.

Theorems: `C07_add_edge_reports_new_nodes` (none).

### C08 add_edge's reported edges are sound and complete — partial
Modelled: any. Soundness and completeness for all slots that existed before the call are proved; completeness for the new edge's slot is refuted by a T-junction run in f32. C83 gives the exact report in general position.

Theorems: `C08_add_edge_reports_edges_partial` (none), `C08_new_edge_slot_reported_refuted` (S N C F).

### C09 Planarity is maintained — partial
Refuted by running three concurrent edges in f32. Proved: `add_node` clears the interior of all edges of the new node (any arithmetic). Planarity in general position: C79-C82.

Theorems: `C09_planarity_refuted` (S N C F), `C09_add_node_clears_partial` (S N C F).

### C10 Edge data provenance — proved
Modelled: any. History invariant: data of stored edges is among the data supplied so far.

Theorems: `C10_edge_data_provenance` (none).

### C11 Additions never disconnect — proved
Modelled: any. Paths as reflexive-transitive closure of adjacency; each split replaces an edge by a path of two.

Theorems: `C11_additions_never_disconnect` (none).

### C12 remove_node removes exactly what it documents — proved
Modelled: any. Removal is refined to filtering the list of edges whose ends are resolved to node records; hypothesis: the node's only edge is not a self-loop (shown necessary by a refutation, and shown to follow from never asking for self-loops).

Theorems: `C12_remove_node_exact` (none), `C12_no_self_loops_suffices` (S N C F), `C12_self_loop_refuted` (S N C F).

### C13 Removing an existing node never panics — partial
Refuted: a fresh graph with one node. Exact condition: C56.

Theorems: `C13_remove_node_never_panics_refuted` (S N C F).

### C14 remove_edge removes exactly one edge and its stray ends — proved
Modelled: any. As C12; `remove_edge` is `remove_node` on the stray ends or a plain deletion.

Theorems: `C14_remove_edge_exact` (none).

### C15 Removing an edge never panics — partial
Refuted: the last edge of a triangle. Exact condition: C57.

Theorems: `C15_remove_edge_never_panics_refuted` (S N C F).

### C16 Removal leaves no stray nodes — proved
Modelled: any. Strays are exactly the nodes all of whose edges are removed.

Theorems: `C16_removal_leaves_no_strays` (none).

### C17 No parallel edges and no self-loops — partial
Modelled: any for self-loops (history invariant); parallel edges refuted in f32; none in tidy histories (C82).

Theorems: `C17_self_loops_only_on_request_partial` (S N C F), `C17_no_parallel_edges_refuted` (S N C F).

### C18 Queries describe the stored graph — partial
Modelled: any. Direct; index 0 refuted by computation for every graph.

Theorems: `C18_queries_partial` (none), `C18_index_zero_refuted` (S N C F).

### C19 Removal reports cover the changes — partial
Modelled: any. Reported lists are compared with the slots that change; hypothesis: no node has a self-loop as only edge (C84: true unless one was requested).

Theorems: `C19_removal_reports_partial` (none).

### C20 find_closest_to is the first minimum — proved
Modelled: lawful. Loop invariant over any total preorder with incomparable NaN.

Theorems: `C20_find_closest_first_minimum` (S N C F), `C20_find_closest_exact` (S N C F).

### C21 Segment intersection is correct — proved
Modelled: exact (`XO`); zero denominator also f32. Cramer's rule against `exists t, 0<=t<=1`.

Theorems: `C21_segment_intersection` (S N C F), `C21_intersection_unique` (S F), `C21_zero_denominator_f32` (S N C F).

### C22 unique_points_among keeps one of each cluster — partial
Modelled: lawful. Subsequence and separation proved; representation refuted. Exact behaviour: C58.

Theorems: `C22_unique_points_subsequence_partial` (S N C F), `C22_every_input_represented_refuted` (S N C F).

### C23 Point-on-segment test — partial
Modelled: exact and f32 as marked by the names. `include_endpoints` refuted. Exact region: C59.

Theorems: `C23_on_segment_accepts_partial` (S N C F), `C23_on_segment_only_partial` (S N C F), `C23_rejects_ends_f32_partial` (S N C F), `C23_symmetric_f32_partial` (S N C F), `C23_include_endpoints_refuted` (S N C F).

### C24 Incenter and inradius — proved
Modelled: exact. Heron's formula and barycentric coordinates of the incenter.

Theorems: `C24_incenter` (S N C F), `C24_incenter_none_iff_degenerate` (S N C F).

### C25 Degeneracy test — proved
Modelled: exact. Equality case of the triangle inequality.

Theorems: `C25_degenerate_iff_collinear` (S N C F).

### C26 Perpendicular foot — proved
Modelled: exact; `a=b` in f32 (0/0 is NaN).

Theorems: `C26_perpendicular_foot` (S N C F), `C26_degenerate_nan_f32` (S N C F).

### C27 Midpoint and perpendicular bisector — partial
Modelled: exact; midpoint symmetry in f32. Offset refuted; exact position: C60.

Theorems: `C27_midpoint` (S N C F), `C27_midpoint_symmetric_f32` (S N C F), `C27_bisector_equidistant_partial` (S N C F), `C27_offset_distance_refuted` (S N C F), `C27_horizontal_not_finite` (S N C F).

### C28 Line intersection — partial
Modelled: exact. Refuted beyond the segments; exact behaviour: C61.

Theorems: `C28_result_on_both_lines_partial` (S N C F), `C28_lines_beyond_segments_refuted` (S N C F).

### C29 Parallel test — proved
Modelled: exact; symmetry and degenerate case in f32. Cauchy-Schwarz with quantitative equality case.

Theorems: `C29_parallel_complete` (S N C F), `C29_parallel_sound` (S N C F), `C29_parallel_invariant` (S N C F), `C29_parallel_symmetric_f32` (S N C F), `C29_parallel_symmetric` (S N C F), `C29_degenerate_false_f32` (S N C F).

### C30 Orientation predicates — proved
Modelled: exact; the swap law in f32 for all inputs (products commute, subtraction is odd).

Theorems: `C30_orientation` (S N C F), `C30_area2_is_double_area` (S N C F), `C30_symmetries` (S N C F), `C30_swap_f32` (S N C F).

### C31 Segment predicates are exact — proved
Modelled: exact, against point-set definitions. The degenerate-segment over-report of `between` is a refutation.

Theorems: `C31_between` (S N C F), `C31_intersect_prop` (S N C F), `C31_intersect` (S N C F), `C31_intersect_complete` (S N C F), `C31_degenerate_refuted` (S N C F).

### C32 Polygon::new normalises orientation — partial
Modelled: exact proved; f32 refuted by a concrete triangle.

Theorems: `C32_new_exact` (S N C F), `C32_new_f32_refuted` (S N C F).

### C33 Polygon area — proved
Modelled: exact. The fan sum equals the shoelace sum.

Theorems: `C33_area` (S N C F), `C33_area_invariant` (S N C F), `C33_triangle_area` (S N C F).

### C34 Transforms — proved
Modelled: exact; vertexwise action in any arithmetic.

Theorems: `C34_transforms` (S N C F), `C34_transforms_any` (none), `C34_orientation_kept` (S N C F), `C34_center` (S N C F).

### C35 Regular polygons — proved
Modelled: exact (sin/cos of the reals); the panic for any arithmetic.

Theorems: `C35_regular` (S N C F), `C35_regular_panics` (none).

### C36 diagonal is sound — proved
Modelled: exact for the geometry, any for totality; converse proved too.

Theorems: `C36_total` (none), `C36_symmetric` (S N C F), `C36_neighbours` (S N C F), `C36_sound` (S N C F), `C36_complete` (S N C F).

### C37 Triangulation partition — partial
Count and vertices in any arithmetic; CCW and area refuted for a self-crossing polygon, proved for simple ones in C77.

Theorems: `C37_triangles` (none), `C37_areas_refuted` (S N C F).

### C38 Triangulation terminates — proved
Modelled: exact and f32 grid. Every simple polygon: via the ear theorem C76 (Meisters), itself proved from winding numbers; convex and regular polygons directly.

Theorems: `C38_terminates_convex` (S N C F), `C38_terminates_regular` (S N C F), `C38_terminates` (S N C F), `C38_terminates_new` (S N C F), `C38_convex_is_simple` (S F), `C38_terminates_f32` (S N C F).

### C39 f32 predicates are exact on grid coordinates — proved
Modelled: f32 and exact run in lockstep. On coordinates k*2^e, |k|<=2048 each operation of the predicates is exact; `diagonal` and `triangulate` follow by simulation.

Theorems: `C39_bound_sharp` (S N C F), `C39_predicates_exact` (S N C F), `C39_diagonal_exact` (S N C F), `C39_triangulate_exact` (S N C F).

### C40 Geometric products implement Cl(3,0) — proved
Modelled: any commutative ring. The specification algebra is proved associative, distributive and Euclidean first, then each product is compared with it.

Theorems: `C40_spec_is_clifford` (none), `C40_products` (none), `C40_rotor_ring` (none).

### C41 Wedge products are exterior products — partial
Modelled: any commutative ring / reals. The bivector clause is refuted; what it computes: C65.

Theorems: `C41_wedge_exterior` (none), `C41_wedge_zero_iff_dependent` (S N C F), `C41_bivector_wedge_exterior_refuted` (S N C F).

### C42 Dot products and norms — proved
Modelled: ring identities, reals for positivity, f32 for symmetry.

Theorems: `C42_dot_is_grade_0` (none), `C42_norm_squared_reversal` (none), `C42_norm_positive` (S N C F), `C42_normalize` (S N C F), `C42_dot_symmetric_f32` (S N C F).

### C43 Inverses — partial
Modelled: reals. Refuted for non-unit rotors; exact: C66.

Theorems: `C43_inverse_vec_biv_tri` (S N C F), `C43_rotor_inverse_refuted` (S N C F).

### C44 Projection and reflection — proved
Modelled: exact (`XO`/reals).

Theorems: `C44_project` (S N C F), `C44_reflect` (S N C F).

### C45 rotate is the rotor sandwich — proved
Modelled: any commutative ring.

Theorems: `C45_rotate_sandwich` (none), `C45_unit_isometry` (S N C F).

### C46 Rotor from two vectors — proved
Modelled: exact; opposite vectors give a non-finite rotor. General lengths: C67.

Theorems: `C46_from_vectors` (S N C F), `C46_opposite_not_finite` (S N C F).

### C47 Rotor from angle and plane — proved
Modelled: exact, with the trigonometric functions of the reals.

Theorems: `C47_angle_plane` (S N C F), `C47_plane_and_normal` (S N C F), `C47_axis_constructors` (S N C F).

### C48 Angle between vectors — partial
Modelled: exact proved; f32 refuted (overflow, underflow and quotient above 1).

Theorems: `C48_angle_exact` (S N C F), `C48_angle_number_f32_refuted` (S N C F), `C48_acos_argument_f32_refuted` (S N C F).

### C49 Componentwise algebra — proved
Modelled: ring for the laws, f32 and exact for `is_zero`.

Theorems: `C49_vector_space` (none), `C49_division` (S N C F), `C49_assign_agree` (none), `C49_is_zero_exact` (S N C F), `C49_is_zero_f32` (S N C F).

### C50 Approximate equality — proved
Modelled: f32 with approx's bit-level `ulps_eq`.

Theorems: `C50_componentwise` (S N C F), `C50_scalar_laws` (S N C F), `C50_laws` (S N C F).

### C51 Line membership — partial
Modelled: exact and f32; computed points on the line refuted in f32. Exact region: C69.

Theorems: `C51_contains_exact` (S N C F), `C51_contains_line` (S N C F), `C51_base_point_f32` (S N C F), `C51_nan_rejected_f32` (S N C F), `C51_computed_points_f32_refuted` (S N C F).

### C52 Basis blade counts — partial
Modelled: integers with overflow; total proved, grade 0 refuted. Exact: C70.

Theorems: `C52_grade_0_refuted` (none), `C52_total` (none).

### C53 FOLD save/load round trip — partial
Modelled: JSON values; refuted. Exact: C71.

Theorems: `C53_round_trip_refuted` (S N C F).

### C54 FOLD loading is tolerant and total — proved
Modelled: JSON values against `FoldSpec`.

Theorems: `C54_document` (S N C F), `C54_empty_document` (S N C F), `C54_unknown_ignored` (S N C F), `C54_order_irrelevant` (S N C F), `C54_malformed_panics` (S N C F), `C54_err_iff_unreadable` (S N C F).

### C55 FOLD validation — partial
`resolve` proved, `validate` refuted (it is constant true).

Theorems: `C55_resolve_unchanged` (none), `C55_validate_refuted` (S N C F), `C55_validate_accepts_all` (none).

### C56 Exactly when remove_node panics — proved
Modelled: any. Exact panic condition of the minimum and of the checked subtraction, on reachable graphs.

Theorems: `C56_remove_node_panics_iff` (none).

### C57 Exactly when remove_edge panics — proved
Modelled: any. As C56.

Theorems: `C57_remove_edge_panics_iff` (none).

### C58 Which points unique_points_among keeps — proved
Modelled: lawful, f32 included.

Theorems: `C58_unique_points_keeps_isolated` (S N C F).

### C59 Exact acceptance region of is_on_line_segment — proved
Modelled: exact; independence of the flag in any arithmetic.

Theorems: `C59_on_segment_iff` (S N C F), `C59_include_endpoints_ignored` (none).

### C60 Where the second bisector point lies — proved
Modelled: exact.

Theorems: `C60_bisector_second_point` (S N C F).

### C61 calculate_line_intersection intersects segments — proved
Modelled: exact.

Theorems: `C61_line_intersection_iff` (S N C F), `C61_agrees_with_segment_intersection` (S N C F).

### C62 Polygon::new in any arithmetic — proved
Modelled: any; the grid clause in f32 by exactness of `area2`.

Theorems: `C62_new_any_arithmetic` (none), `C62_new_triangle_grid` (S N C F).

### C63 Areas in a triangulation — proved
Modelled: exact; convex partition also f32 grid.

Theorems: `C63_triangulation_areas` (S N C F), `C63_partition_convex` (S N C F), `C63_partition_convex_f32` (S N C F).

### C64 When triangulate hangs — proved
Modelled: any. With no ear the loop state never changes; fuel monotonicity.

Theorems: `C64_degenerate_hangs` (S N C F), `C64_no_ear_hangs` (none), `C64_result_stable` (none).

### C65 What the bivector wedge computes — proved
Modelled: any commutative ring.

Theorems: `C65_bivector_wedge_commutator` (none).

### C66 Rotor inverse is the reversal — proved
Modelled: any commutative ring; the iff over the reals.

Theorems: `C66_rotor_inverse_reversal` (none), `C66_rotor_inverse_iff_unit` (S N C F).

### C67 Rotor from two vectors, any lengths — proved
Modelled: exact.

Theorems: `C67_from_vectors_general` (S N C F), `C67_from_vectors_direction` (S N C F).

### C68 Angle: symmetry, domain and special angles — proved
Modelled: f32 for symmetry; exact for the rest.

Theorems: `C68_angle_f32_symmetric` (S N C F), `C68_angle_finite_iff_nonzero` (S N C F), `C68_angle_cases` (S N C F).

### C69 Line membership region and distance — proved
Modelled: f32 region; exact distance bounds.

Theorems: `C69_region_f32` (S N C F), `C69_distance` (S N C F), `C69_degenerate` (S N C F), `C69_intersect_none` (none), `C69_scale_matters` (S N C F).

### C70 Basis blade counts, exactly — proved
Modelled: integers with overflow, both profiles, any word width; binomials specified by Pascal's triangle.

Theorems: `C70_binomial_spec` (none), `C70_grade_0` (none), `C70_value_iff_fits` (none), `C70_above_n` (none), `C70_release` (none), `C70_total_overflow` (none), `C70_total_truncates` (none), `C70_sum` (none).

### C71 FOLD save and load, exactly — proved
Modelled: JSON values.

Theorems: `C71_save_load` (S N C F), `C71_loaded_is_typed` (S N C F).

### C72 Which FOLD documents load — proved
Modelled: JSON values; the relation `reads` is shown functional.

Theorems: `C72_loads_iff` (S N C F), `C72_otherwise_panics` (S N C F), `C72_reads_functional` (S N C F).

### C73 FOLD values that panic — proved
Modelled: JSON values.

Theorems: `C73_fractional_spec_panics` (S N C F), `C73_null_panics` (S N C F), `C73_id_range` (S N C F).

### C74 Orientation of simple polygons — proved
Modelled: exact. Winding numbers by ray crossings; induction on the number of vertices by cutting along an internal chord and gluing the two pieces' winding numbers.

Theorems: `C74_orientation` (S N C F), `C74_interior_angle` (S N C F), `C74_area_sign` (S N C F).

### C75 diagonal is exact on simple polygons — proved
Modelled: exact; f32 grid via C39. `in_cone` at both ends plus no blocking edge is shown equivalent to all points between being inside (the winding number is locally constant off the boundary).

Theorems: `C75_diagonal_exact` (S N C F), `C75_diagonal_exact_f32` (S N C F).

### C76 Ears of simple polygons — proved
Modelled: exact. Two-ears theorem by strong induction on chords; clipping keeps simplicity; unaffected ear flags stay correct.

Theorems: `C76_ears` (S N C F), `C76_two_ears` (S N C F), `C76_clip` (S N C F).

### C77 Triangulation tiles simple polygons — proved
Modelled: exact; f32 grid via C39. Winding numbers of triangle and remainder add up at each clip.

Theorems: `C77_tiling` (S N C F), `C77_tiling_f32` (S N C F).

### C78 Exact regions of the approximate comparisons — proved
Modelled: f32, with approx's bit-pattern arithmetic. Regions stated with real numbers and Flocq's rounding and successor; bit patterns of non-negative floats are shown to count successors.

Theorems: `C78_regions` (S N C F), `C78_infinities` (S N C F).

### C79 Drawing an edge in general position keeps the drawing planar — proved
Modelled: exact. Invariant of the splitting loop: two edges meet only in a common end or in a pending point; pending points are nodes, or away from nodes and exactly on the edges in whose needle they are. One split preserves it (triangle inequality); parallel overlaps are excluded because the ends would be adjacent.

Theorems: `C79_add_edge_planar` (S N C F).

### C80 Adding a node keeps the drawing planar — proved
Modelled: exact. One step of the same invariant.

Theorems: `C80_add_node_planar` (S N C F).

### C81 Removals keep the drawing planar — proved
Modelled: exact. C14/C16's renumbering is injective, so distances and incidences carry over.

Theorems: `C81_remove_node_planar` (S N C F), `C81_remove_edge_planar` (S N C F).

### C82 Unambiguous histories yield planar drawings — proved
Modelled: exact. Induction over the history with C79-C81; a midpoint argument excludes parallel edges.

Theorems: `C82_tidy_histories_planar` (S N C F).

### C83 add_edge reports exactly the changed slots in general position — proved
Modelled: exact. Every split in general position is at a new node, so a reported slot ends in a node that did not exist before; every pending point lies on the new edge, so its slot is always reported.

Theorems: `C83_add_edge_reports_exactly` (S N C F).

### C84 Removal reports cover the changes unless a self-loop was requested — proved
Modelled: f32. C19's partial theorem, whose hypothesis (no lone self-loop) holds without requests for self-loops (C17).

Theorems: `C84_removal_reports_without_loops` (S N C F).

### C85 Integer polygons in f32, from construction to triangles — proved
Modelled: f32. Each partial sum of `area_poly2` is an integer below 2^24 in grid units (twice the area of a triangle in a square is at most the square), hence exact; then C77.

Theorems: `C85_new_exact` (S N C F), `C85_new_ccw` (S N C F), `C85_tiling` (S N C F).

### C86 Area and center of integer polygons in f32 — proved
Modelled: f32. Exact sums as in C85; one rounding in the division.

Theorems: `C86_area_exact` (S N C F), `C86_center_rounded` (S N C F).

### C87 Segment intersection in f32 on integer grids — proved
Modelled: f32. Determinants are exact integers below 2^24 in grid units; rounding a quotient of such integers never moves it across 0 or 1; the last two operations are bounded by relative error.

Theorems: `C87_segment_intersection_decides` (S N C F).

### C88 The closest point in f32 on integer grids — proved
Modelled: f32. The rounded roots of different integers up to 2^22 differ; witness for 765 by evaluation.

Theorems: `C88_closest_exact` (S N C F), `C88_fails_at_765` (S N C F).

### C89 Points on segments and grid crossings in f32 — proved
Modelled: f32. On grid lines all distances are exact or the detour is at least 2^(e-4); in the small box Heron's formula bounds the detour over a grid point off the segment below by 4/14739 of the spacing, more than the rounding errors and epsilon; j/l*l = j in f32 for j <= l <= 12 by table. Witnesses by evaluation.

Theorems: `C89_on_grid_lines_exact` (S N C F), `C89_on_small_box_exact` (S N C F), `C89_fails_on_integers` (S N C F), `C89_grid_crossing_exact` (S N C F), `C89_crossing_fails_at_13` (S N C F).

### C90 Drawing on small f32 grids is exact — proved
Modelled: f32 and exact. `GraphSim.v`: the graph code in two arithmetics agrees on whole histories if the five geometric decisions agree on a class of points and segments that splitting does not leave; the decisions agree by C87-C89.

Theorems: `C90_histories_exact` (S N C F), `C90_calls_exact` (S N C F).

### C91 Drawing on small f32 grids yields planar drawings — proved
Modelled: f32. On the grid every place is a good place and every clear segment is in general position (C82), so the exact history is unambiguous; carried over by C90.

Theorems: `C91_planar` (S N C F), `C91_edge` (S N C F), `C91_node` (S N C F).

### C92 Products in floating point are accurate — proved
Modelled: any format `f : Fmt`; `BO (single lm) = FO lm` by reflexivity. `Rounding.v`: every +,-,* expression has relative error (1+u)^n - 1 of the sum of the magnitudes of its terms plus underflow; `GARound.v` reifies the components of each product and bounds the magnitudes by Cauchy-Schwarz; compared with the Clifford product of GASpec.v by C40.

Theorems: `C92_products` (S N C F), `C92_dot_wedge` (S N C F), `C92_rotate` (S N C F), `C92_f32_f64` (S N C F).

### C93 norm and normalize are accurate — proved
Modelled: any format. The squared norm has relative error 4.1u (C92 and t <= u L^2), sqrt halves it; each quotient adds one rounding; an underflowing quotient is below u^2 (`NormRound.v`).

Theorems: `C93_norm_normalize` (S N C F).

### C94 inverse is accurate — proved
Modelled: any format. Errors of norm_squared, division and one product (`InvRound.v`), bounded by lengths in `LenReal.v`.

Theorems: `C94_inverse` (S N C F).

### C95 project, reflect and angle are accurate — proved
Modelled: any format. Composition of C92-C94 (`RotRound.v`).

Theorems: `C95_project_reflect` (S N C F), `C95_angle_argument` (S N C F).

### C96 Normalized rotors rotate accurately — proved
Modelled: any format. Composition of C92, C93; the sandwich is Lipschitz in the rotor (`rotate_diff`, `LenReal.v`). The terms of the bivector part of R R~ cancel in pairs of equal rounded products (`BitRound.v`).

Theorems: `C96_unit_rotor` (S N C F).

### C97 from_vectors rotates one direction onto the other in floating point — proved
Modelled: any format. 1 + v u with unit u, v has length h and rotates u to v exactly; perturbing u, v and the rotor by the errors of C92, C93 changes the image by at most 160u/h (`FromRound.v`).

Theorems: `C97_from_vectors` (S N C F).

### C98 Exact facts of src/math in every format — proved
Modelled: any format. Case analysis of Flocq's Bmult and Beqb; exact cancellation from Bplus_correct/Bminus_correct.

Theorems: `C98_symmetric` (S N C F), `C98_is_zero` (S N C F), `C98_rotor_reverse` (S N C F).

### C99 Distances in f32 are accurate — proved
Modelled: `distance` in f32. Error analysis with Flocq's relative error of each operation; the sum of squares is within the errors of its terms and sqrt is 1/2-Lipschitz in relative terms (`GeoRound.v`, calculus of rounding errors in `NearCalc.v`).

Theorems: `C99_distance` (S N C F).

### C100 The f32 tolerance separates nodes by true distance — proved
Modelled: f32 graph. C99 at the threshold, with C01's separation invariant and the case analysis of add_node (`GraphAddProps.v`).

Theorems: `C100_nodes_apart` (S N C F), `C100_add_node` (S N C F), `C100_closest` (S N C F), `C100_close_to` (S N C F).

### C101 What is_on_line_segment accepts and rejects in f32 — proved
Modelled: f32. C99 for the three distances; a point of detour e lies in the ellipse with foci a, b, whose distance to the segment is bounded (`detour_close`, `GeoOn.v`).

Theorems: `C101_accepted_is_near` (S N C F), `C101_on_is_accepted` (S N C F), `C101_short_segments` (S N C F).

### C102 A forward error bound certifies the f32 orientation predicates — proved
Modelled: f32. Rounding errors of the two products; the final subtraction has the sign of its exact value (`area2_error`, `area2_sign`, `GeoPoly.v`); every predicate is a boolean combination of those signs and of exact comparisons.

Theorems: `C102_area2_error` (S N C F), `C102_predicates` (S N C F), `C102_predicates_fail_at_flat_triples` (S N C F).

### C103 f32 polygons in robust position: area, orientation, tiling — proved
Modelled: f32. `GeoArea.v`: errors of the fan sum; the run of triangulate in f32 is the image of the run on the exact points, since all signs agree (`GeoPoly.v`), so C77 applies.

Theorems: `C103_area` (S N C F), `C103_new` (S N C F), `C103_tiling` (S N C F).

### C104 Segment crossings in f32 — proved
Modelled: f32. Cramer's rule for the exact parameters; errors of both determinants and of the quotient (`GeoSeg.v`).

Theorems: `C104_on_first_segment` (S N C F), `C104_crossing` (S N C F).

### C105 Crossings in f32 drawings get nodes — proved
Modelled: f32 graph. The nodes of split_edges_along_edge are those of the kept crossings or are near them (`GeoGraph.v`, for any scalars); then C100, C104.

Theorems: `C105_new_nodes` (S N C F), `C105_crossing_gets_node` (S N C F), `C105_splitting_fails_at_scale_1` (S N C F).

### C106 Midpoints and polygon centres in f32 — proved
Modelled: f32. Halving is exact or off by 2^-150; monotonicity of rounding gives betweenness; error of the fold by induction, (1+u)^n <= e for n <= 2^24 (`GeoCons.v`).

Theorems: `C106_midpoint` (S N C F), `C106_midpoint_fails_at_overflow` (S N C F), `C106_center` (S N C F).

### C107 The perpendicular foot in f32 — proved
Modelled: f32. Errors of numerator, squared length and quotient, then of the correction; the foot is specified by on_line and dot = 0 (`GeoFoot.v`).

Theorems: `C107_foot` (S N C F), `C107_foot_fails_at_short_segments` (S N C F).

### C108 Line intersection in f32 — proved
Modelled: f32. As C104 with the other form of the determinant and its test against EPSILON (`GeoLine.v`).

Theorems: `C108_line_intersection` (S N C F), `C108_short_segments_missed` (S N C F).

### C109 Incenter and degeneracy test in f32 — proved
Modelled: f32. The centre is specified by `incircle` (inside, equal distances to the three sides) and shown to be the weighted mean; then errors of sides, perimeter, its reciprocal and the weighted sums (`GeoInc.v`). Flat triangles are evaluated.

Theorems: `C109_incenter` (S N C F), `C109_accepted` (S N C F), `C109_accepted_fails_at_collinear` (S N C F), `C109_accepted_fails_at_flat` (S N C F).

### C110 Inradius in f32 — proved
Modelled: f32. Relative errors through Heron's product, square root and quotient (`GeoRad.v`); the exact radius is that of `incircle`.

Theorems: `C110_inradius` (S N C F), `C110_inradius_fails_at_large` (S N C F).

### C111 The parallel test in f32 — proved
Modelled: f32. Errors of the normalised components and their products against `dot`/`dist` of PlaneSpec; the tolerance test then bounds cosine and sine (`GeoPar.v`). Own direction evaluated.

Theorems: `C111_parallel_sound` (S N C F), `C111_cosine` (S N C F), `C111_parallel_fails_at_same_segment` (S N C F).

### C112 Horizontal and vertical segments in f32 — proved
Modelled: f32. The rounded square root of the rounded square of a float is its absolute value (`sqrt_square_abs`), so unit vectors of axis-parallel segments are exact (`GeoAxis.v`).

Theorems: `C112_distance` (S N C F), `C112_parallel` (S N C F), `C112_distance_fails_at_small` (S N C F).

### C113 Second point of the perpendicular bisector in f32 — proved
Modelled: f32. Relative errors of the two quotients, then error terms of the sums (`GeoBis.v`); the exact point is specified by equal distances and its x. Cancellation evaluated.

Theorems: `C113_bisector` (S N C F), `C113_bisector_fails_at_far` (S N C F).

### C114 Regular polygons in f32 — proved
Modelled: f32, libm as an arbitrary pair of functions with the stated accuracy (`accurate_libm`; `libm_grid` is an instance). pi by Machin-type series, Lipschitz bounds of sin/cos, rounding errors (`GeoReg.v`); turns of the perturbed corners against 4r^2 sin^3(pi/n), then C103 (`GeoRegPoly.v`).

Theorems: `C114_corners` (S N C F), `C114_regular` (S N C F), `C114_regular_fails_at_far_centre` (S N C F).

### C115 Area of regular polygons in f32 — proved
Modelled: f32. Shoelace sum of the perturbed corners against n r^2 sin(2pi/n), plus the area error of C103 (`GeoRegPoly.v`).

Theorems: `C115_regular_area` (S N C F).

### C116 Line::contains in f32 with rounding errors — proved
Modelled: f32. Error of each rounded component against the exact wedge (`LineRound.v`); distance through the wedge identity of `LineProofs.v` and the error of p + d*t.

Theorems: `C116_contains_rounding` (S N C F), `C116_accepted_close` (S N C F), `C116_computed_points` (S N C F).

### C117 Rotors from an angle and a plane in floating point — proved
Modelled: any format, libm as arbitrary functions with the stated accuracy (`accurate_trig`, AngleSpec.v). Halving is exact up to underflow, Lipschitz bounds of sin/cos, error vectors of the rotor in the Euclidean norm, then the rotate bound of C95 (`AngleRound.v`).

Theorems: `C117_from_angle_plane` (S N C F), `C117_axis_rotations` (S N C F).

### C118 translate and uniform_scale in f32 — proved
Modelled: f32. One rounding per coordinate; power-of-two products are representable; perturbation of the cross product (`TransRound.v`).

Theorems: `C118_translate` (S N C F), `C118_scale` (S N C F), `C118_scale_power_of_two` (S N C F), `C118_translate_orientation` (S N C F).

### C119 add_edge in f32 splits exactly at the true crossings when there is room to spare — proved
Modelled: f32, `add_edge` and all it calls. Rounded on-segment, parallel and crossing tests decided from distances (`MarginSeg.v`, using the error bounds of C99-C104); a relation between the f32 graph and a shadow drawing with the true crossings, kept by every split (`MarginGraph.v`, `MarginAdd.v`); a drawing near a spaced planar one is planar (`MarginReal.v`).

Theorems: `C119_add_edge` (S N C F).

### C120 add_node in f32 when there is room to spare — proved
Modelled: f32, `add_node`. The one-point case of C119 (`MarginAdd.v`).

Theorems: `C120_add_node` (S N C F).

### C121 Histories in f32 with room to spare stay planar, off any grid — proved
Modelled: f32, all four mutators. Induction over the history (`MarginHist.v`); removals through the exact-arithmetic theorem of C81 on the graph with its coordinates read as reals.

Theorems: `C121_histories` (S N C F).

### C122 A plane drawing is determined by its nodes and its picture — proved
Modelled: the stored data of `Graph.v` (node positions and edges) as a drawing. `DrawSpec.v` says when two drawings are the same and what a plane drawing is. Proof (`Draw.v`): by the pigeonhole principle some edge of the other drawing contains two inner points of a given edge, so both lie on one line; as the nodes are the same and none is inside an edge, both end at the same points. The matching is injective, so the numbers of edges agree.

Theorems: `C122_drawing_determined` (sig_forall_dec classic functional_extensionality_dep).

### C123 The order in which edges are drawn does not matter — proved
Modelled: `add_edge` with all splits (`Graph.v`), at exact scalars. `Draw.v` shows that one call covers the old drawing and the segment and has exactly one new node per meeting point, by induction over the list this describes nodes and picture independently of the order, and C122 gives the same drawing. The payloads are not part of `same_drawing`: which piece keeps which data is C10.

Theorems: `C123_order_irrelevant` (S N C F), `C123_nodes_at_crossings` (S N C F).

### C124 Bookkeeping of the total edge length — proved
Modelled: the four operations of `Graph.v` at exact scalars; `total_length` in `DrawSpec.v`. Proof (`Draw.v`): a split at a node on the edge keeps the sum by additivity of the distance along a segment, removal is a filter up to order.

Theorems: `C124_adding_length` (S N C F), `C124_removing_length` (S N C F).

### C125 On a drawing with room to spare add_edge in f32 does what add_edge in real arithmetic does — proved
Modelled: `add_edge` of `Graph.v` at the f32 and at the exact scalars, the latter on the real values of the same coordinates (`exact_graph`). `Follow.v` proves, for any scalars whose points follow given exact points, that the loop over the edges and the splits produce what the crossing points determine (`splits`, a function of the drawing); `MarginSim.v` instantiates it at both scalars and compares.

Theorems: `C125_add_edge` (S N C F).

### C126 Histories of calls in f32 follow the history in real arithmetic — proved
Modelled: all four operations of `Graph.v` at both scalars, with their answers (`call`, `calls` in `SimSpec.v`). `calm` (room to spare, `climbs`: depth of crossings) is stated on the exact run. Proofs: `Drift.v` (how a crossing moves when the ends move), `MarginDrift.v` (every operation keeps `twin`: same edges, nodes within their drift; induction over the history). The integer checker `CalmCheck.v` establishes `calm` for the example, whose two crossings (depth 1 and 2) are not f32 points.

Theorems: `C126_histories` (S N C F), `C126_planar` (S N C F).

### C127 In f32 the order in which segments are drawn matters only up to the drift — proved
Modelled: lists of `add_edge` calls of `Graph.v` in f32 (`adds`, `alike` in `SimSpec.v`). Proof (`SimOrder.v`): with room to spare a segment is in general position for the exact program and never becomes an edge by other segments being drawn, so C123 says that both exact runs give the same drawing; C126 bounds the distance of each f32 run to its exact run.

Theorems: `C127_order_f32` (S N C F).

### C128 In exact arithmetic the graph code does not depend on where the drawing lies or how it is turned — proved
Modelled: the four operations of `Graph.v` with their answers (`calls`). `IsoSpec.v` defines the moved graph, calls and outcomes. Proofs: `MoveSim.v` (for any scalars: if a map of points keeps `distance` and commutes with the crossing function, every operation commutes with it; the code looks at positions in no other way), `IsoReal.v` (an isometry of the plane is affine with an orthogonal matrix; the crossing function commutes with every invertible affine map).

Theorems: `C128_histories` (S N C F), `C128_calls` (S N C F).

### C129 The f32 graph code commutes bit for bit with the symmetries of the square — proved
Modelled: the same, in f32. `SymF32.v`: the relation "equal up to the sign, the sign of zero not counting" is kept by + - * / and sqrt; `SymMove.v`: so distances and crossings commute with the eight symmetries. The positions made by a crossing are never -0 (they are sums of a product and a coordinate whose zero was made +0), which is why equality is bit for bit.

Theorems: `C129_histories` (S N C F), `C129_calls` (S N C F), `C129_zero_sign` (S N C F), `C129_fails_at_translation_and_scaling` (?).

### C130 In exact arithmetic triangulating and transforming a polygon commute — proved
Modelled: `triangulate`, `diagonal`, `between`, `polygon_new`, `polygon_area` of `Polygon.v` at the reals. Proofs: `PolyMove.v` (for any scalars: predicates that commute make triangulate commute), `PolyIso.v` (area2 is multiplied by the determinant; `between` on collinear points is a statement about the ratio, which is affine invariant, unless both ends are the same point).

Theorems: `C130_triangulate` (S N C F), `C130_new_and_area` (S N C F), `C130_transforms` (S N C F), `C130_fails_at_repeated_points` (?).

### C131 f32 polygons under quarter turns and reflections — proved
Modelled: the same functions in f32. `PolyIso.v` with `SymF32.v`: rounded areas are equal bit for bit up to sign; `between` compares x or y depending on whether the ends have equal x, which the half turn does not change; on the grid the areas are exact (C39) and C130 applies to the quarter turns.

Theorems: `C131_half_turn` (S N C F), `C131_quarter_turns` (S N C F), `C131_area` (S N C F), `C131_fails_at_between_off_the_grid` (?).

### C132 add_node is idempotent, except at points that are not finite — proved
Modelled: `add_node`, `find_closest_to`, `is_on_line_segment` of `Graph.v`/`Utils.v`. Proof (`Undo.v`): x - x is a zero for every finite f32, so the distance of a point to itself is 0; with a NaN or infinite coordinate every distance is NaN or +inf, which no comparison accepts.

Theorems: `C132_node_again` (S N C F), `C132_node_again_exact` (S N C F), `C132_not_finite` (S N C F).

### C133 Removing what was just added never restores the graph; redrawing a removed edge does — proved
Modelled: all four operations. Proofs (`Undo.v`): the closed forms of the operations used for C04, C12 and C14 (`restricts`: which nodes and edges are left, in which order, with what renumbering) composed; redrawing: in a plane drawing the removed edge is in general position, so C79 applies and C122 says that nothing was split.

Theorems: `C133_undo_edge` (none), `C133_undo_node` (none), `C133_never_restored` (none), `C133_strays_exactly` (none), `C133_redraw` (S N C F).

### C134 Number of nodes and edges of a drawing — proved
Modelled: `add_edge`, `add_node`, `split_edges_along_edge` of `Graph.v`. Proofs (`Size.v`): the number of edges through a point that is not a node does not change when edges are split elsewhere, so at every pending crossing exactly two edges are split; a drawn segment meets an older one in at most one new node, since two would put infinitely many nodes on the common part. `SizeAny.v`: f32 by C126's comparison; the growth bounds by counting the points handed to the splitting loop.

Theorems: `C134_add_edge` (S N C F), `C134_add_node` (S N C F), `C134_draws` (S N C F), `C134_f32` (S N C F), `C134_growth` (none).

### C135 The geometry helpers commute with the symmetries of the square (f32) — proved
Modelled: the functions of `Utils.v` and `Polygon.v` at f32. Proof (`HelperSym.v`): the calculus of equality up to sign of `SymF32.v` (every rounded operation commutes with changes of sign, up to the sign of zero) applied to each function.

Theorems: `C135_same_answers` (S N C F), `C135_same_points` (S N C F), `C135_bisector` (S N C F).

### C136 The geometry helpers commute with isometries (exact arithmetic) — proved
Modelled: the same functions at `XO`/`RO`. Proof (`HelperIso.v`): an isometry is an affine map with orthogonal matrix (`IsoReal.v`); then ring identities, and the same division by zero on both sides.

Theorems: `C136_isometries` (S N C F), `C136_affine` (S N C F).

### C137 Edges drawn through existing nodes — proved
Modelled: `add_edge`, `split_edges_along_edge`, `unique_points_among` of `Graph.v`/`Utils.v`. Proof (`Through.v`): the list of intersections contains a passed node once for each of its edges, and `unique_points_among` keeps the points without a close partner, so a passed node is handed to the splitting loop exactly if its degree is 1; the loop invariant of C79 is carried out with a set of excepted nodes.

Theorems: `C137_through_nodes` (S N C F), `C137_general_position` (sig_forall_dec sig_not_dec functional_extensionality_dep).

### C138 Unit rotors are the rotations of space — proved
Modelled: `rotate`, `from_vectors`, `from_angle_plane`, `Mul` of `GA.v` at `RO`/`XO`; orthogonal maps, rotations and unit rotors defined in `SpinSpec.v`. Proof (`Spin.v`): a length-preserving map is linear with orthonormal columns; a unit rotor is taken from the largest of the four traces, and the kernel of the map from rotors to rotations is computed from the images of the unit vectors.

Theorems: `C138_rotations` (S N C F), `C138_improper` (S N C F), `C138_constructions` (S N C F), `C138_operations` (S N C F), `C138_from_vectors` (S N C F).

### C139 Planar drawings through existing nodes — proved
Modelled: as C137 and C90. Proof (`GridThrough.v`): C137 gives the step in exact arithmetic, hence by induction all histories; on the grids of C90 the f32 run is the exact run and points of the grid are far apart, so that the f32 hypotheses (`GridThroughSpec.v`) imply those of C137. `GridThroughCheck.v` decides them for the examples.

Theorems: `C139_exact_planar` (S N C F), `C139_grid_planar` (S N C F), `C139_grid_edge` (S N C F), `C139_fails_at_two_edges` (S N C F).

### C140 The order of removals does not matter — proved
Modelled: `remove_node`, `remove_edge` and their helpers as in `Graph.v`. `RemovalSpec.v` defines what is left when given edges survive (`leaves`) and sequences of removals that name edges of the first graph. Proof (`Removal.v`): each call restricts the graph (C05, C06), restrictions compose, and the increasing list of kept slots is determined by its members, so the surviving edges determine the result.

Theorems: `C140_what_is_left` (none), `C140_determined` (none), `C140_any_order` (none), `C140_remove_node` (none), `C140_clear` (none), `C140_panic_fails_at_last_slot` (none), `C140_remove_node_fails_at_parallel` (none).

### C141 A drawing can be built again from its nodes and edges — proved
Modelled: `add_node`, `add_edge` as in `Graph.v`; `rebuild` (`RebuildSpec.v`) is the list of calls read off a graph. Proof (`Rebuild.v`): a prefix of a well-drawn graph is well drawn and the next edge is in general position without crossings, so by C79 no node is added and no edge is split; the f32 steps follow the exact ones by C90 and C125, and a call that adds no node leaves the node list alone.

Theorems: `C141_labels` (none), `C141_exact` (S N C F), `C141_all_drawings` (S N C F), `C141_through` (S N C F), `C141_grid` (S N C F), `C141_margin` (S N C F), `C141_fails_at_parallel` (S N C F).

### C142 Nodes and edges may be added in any order — proved
Modelled: `add_node`, `add_edge` as in `Graph.v`; `AnyOrderSpec.v` reads off a history the points and segments it asks for (`asks`). Proof (`AnyOrder.v`): by induction on the history, from what one call does (C79, C137), the set of nodes and the covered points are determined by the strokes; two well-drawn graphs with the same nodes and the same covered points join the same nodes (C122). In f32 on the grids the run is the exact run (C90, C139). `AnyOrderCheck.v` computes the strokes for the examples.

Theorems: `C142_exact` (S N C F), `C142_picture` (S N C F), `C142_asks` (S N C F), `C142_grid` (S N C F), `C142_fails_at_isolated_node` (S N C F).

### C143 The calls are operations on sets of points; slots do not matter — proved
Modelled: the four mutating calls as in `Graph.v`. `MeaningSpec.v` gives every call a word in points and every word an effect on a pair of point sets, without slots. Proof (`Meaning.v`): links of the scene are the edges (C122); one call of each kind by C79/C137 (additions) and C56/C57 with `restricts` (removals); histories by induction; in f32 on the grids the run is the exact run (C90). The conditions on words and those of C139 on calls are shown to be the same. `MeaningCheck.v` computes the words for the example.

Theorems: `C143_meaning` (S N C F), `C143_links` (sig_forall_dec classic functional_extensionality_dep), `C143_conditions` (S N C F), `C143_slots` (S N C F), `C143_tells` (S N C F), `C143_grid` (S N C F), `C143_grid_slots` (S N C F), `C143_panic_fails_at_slots` (none).

### C144 Off the grids, f32 calls are operations on sets of points up to rounding — proved
Modelled: the four mutating calls at FO (f32) and XO (reals, the same tolerances). Proof (`MeaningMargin.v`): a calm history (C126) is tidy and hence neat (C139), so the exact program draws what the words say (C143) or what the strokes say (C142); the f32 program stays next to it (C126), and two f32 graphs next to the same drawing are alike (C127). The examples carry the drawing of C126 over to other slots.

Theorems: `C144_meaning` (S N C F), `C144_slots` (S N C F), `C144_order` (S N C F).

### C145 Edges drawn along existing edges — proved
Modelled: as C137. Proof (`Over.v`): `calculate_line_segment_intersection` returns nothing for parallel segments, so the list of intersections holds the meeting points with the edges that are not parallel; the loop invariant of C137 (`Through.v`, `thru`) is stated up to a set of exempt points, here the points of the overlapped edges, and the loop keeps every point that is on two edges on two edges (`t_twice`). An overlapped edge of a well-drawn graph lies within the segment (`over_within`). Without overlap the statement is C137.

Theorems: `C145_over_edges` (S N C F), `C145_unambiguous` (sig_forall_dec sig_not_dec functional_extensionality_dep).

### C146 Drawings in which edges run through nodes — proved
Modelled: as C137. Proof (`Loose.v`): the loop invariant of C137 (`thru`) holds for the loosely drawn graph with the new edge, the allowed unsplit nodes being those crossed before and those passed; a node is in the list of intersections exactly if the segment meets once there (`add_edge_loose_pending`), because `unique_points_among` keeps exactly the intersections that occur once. The directions of the edges through a point are kept by every split (`t_heads`), and with three directions at a node at least two edges there are not parallel to any segment (`knot_many`).

Theorems: `C146_edge` (S N C F), `C146_repaired` (S N C F), `C146_node` (S N C F), `C146_history` (S N C F), `C146_knot` (S N C F).

### C147 Edges running through nodes in f32 on grids — proved
Modelled: as C90. Proof (`GridLoose.v`): on the grids a segment that shares at most one point with each edge is unambiguous in a loosely drawn graph (`along_unambiguous`), f32 and exact program agree (C90), hence C146. The example has three bars through one node: the second repairs it, the third runs through it for ever.

Theorems: `C147_history` (S N C F), `C147_edge` (S N C F), `C147_node` (S N C F), `C147_knot` (S N C F).

### C148 Removals where edges run through nodes — proved
Modelled: the four mutating calls at XO and FO. Proof (`LooseRemove.v`): both removals restrict the graph to the remaining nodes and edges (`remove_node_restricts`, `remove_edge_restricts`); two remaining edges meet in a node of before, which is gone only if both run through it, because their ends stay (`restricts_loose`). In f32 (`GridLooseRemove.v`) removals use no arithmetic, so the f32 and the exact program agree.

Theorems: `C148_remove_node` (S N C F), `C148_remove_edge` (S N C F), `C148_history` (S N C F), `C148_grid_history` (S N C F), `C148_grid_remove_node` (S N C F), `C148_grid_remove_edge` (S N C F), `C148_fails_at_two_edges` (S N C F).

### C149 Order of drawing where edges run through nodes — proved
Modelled: add_node and add_edge at XO and FO. Proof (`LooseOrder.v`): by induction over the calls the picture is the old one plus the segments, and the nodes are the old ones, the points asked for, and the points on two segments or on a segment and the old picture (`asks_loose`); both are invariant under `redrawn`. Cutting every edge of a loosely drawn graph at the nodes it runs through (`chain`, `cut_all`, `loose_cut`) gives a plane drawing with one more edge per passed node; plane drawings with the same nodes and picture have equally many edges (C122, `drawing_unique`). The example is a cross whose middle is added first or between the arms: 4 edges, or 3 and one passed node.

Theorems: `C149_picture` (S N C F), `C149_order` (S N C F), `C149_passings` (S N C F), `C149_either_end` (S N C F), `C149_grid` (S N C F), `C149_fails_at_edges` (S N C F).

### C150 Exactly which f32 histories stay planar — proved
Modelled: the four mutating calls at FO and XO. Proof (`GridOver.v`): on the grids a request has no near misses, because crossings are grid points and grid points are far apart (`grid_no_miss`); so C145 applies to every request (`fam_over`), the f32 program being equal to the exact one by C90. An edge that is run along has infinitely many points that are covered twice (`free_point`), so the result is not planar; without such edges C139 decides. The histories follow by induction (`fam_stays`); add_edge does not panic there, so a request that is not clear does lead to a drawing that is not planar.

Theorems: `C150_edge` (S N C F), `C150_history` (S N C F).

### C151 Exactly which histories stay planar in exact arithmetic — proved
Modelled: the four mutating calls at XO. Proof (`Stays.v`): for one request, C145 gives the twice covered points of every edge it runs along and C139 the nodes it runs through, each of which refutes planarity; otherwise C139 gives a planar drawing (`planar_clear`). The histories follow by induction (`stays_iff`). The example is C150's pair of histories read as real numbers, one of which stays planar and one of which does not.

Theorems: `C151_edge` (S N C F), `C151_history` (S N C F).

### C152 Loops do not take part in splitting — proved
Modelled: add_node and add_edge at XO and FO. Proof (`Loops.v`): a segment of length zero meets no segment, because the denominator is zero (or NaN) and so is the numerator, and 0/0 is NaN (`FO_cut_flat_l`, `FO_cut_flat_r`); no point lies on it, because a point farther than epsilon from its end has twice that distance to both ends together (`twice_far`: rounding 2x does not go below x, overflow gives infinity). Given these facts the loops over the edges skip loops (`split_loop`, `strip_cuts`), and a half made by a split is never a loop, since the splitting node is farther than epsilon from both ends. Histories by induction (`strip_run`).

Theorems: `C152_node` (S N C F), `C152_edge` (S N C F), `C152_loop` (S N C F), `C152_history` (S N C F), `C152_planar` (S N C F), `C152_fails_at_removal` (S N C F).

### C153 Edges between nodes not a finite distance apart do not take part in splitting — proved
Modelled: add_node and add_edge at FO. Proof (`Frozen.v`): a difference that is not finite makes the denominator and one of the two numerators of the segment intersection not finite, and such a quotient is NaN (`cut_apart_l`, `cut_apart_r`); it makes the length of the segment not finite, so the triangle test of is_on_line_segment fails (`on_apart`), and a node on a segment is a finite distance from both ends (`on_near`), so halves are never such edges. The loops over the edges then skip them (`frozen_loop`, `thaw_cuts`), and histories follow by induction (`thaw_run`). NaN payloads are not modelled.

Theorems: `C153_node` (S N C F), `C153_edge` (S N C F), `C153_apart` (S N C F), `C153_history` (S N C F).

### C154 Data and labels are carried, never read — proved
Modelled: the four mutating calls with their data and labels, for every `Ops`. Proof (`Carry.v`): each loop and helper commutes with `dress` (a map over the two arrays), by induction; new nodes and edges have the default label, which the functions fix. Histories by induction (`dress_run`); `C154_blind` applies it with the data erased on both sides.

Theorems: `C154_calls` (none), `C154_history` (none), `C154_blind` (none).

### C155 Edges that a call does not meet may be left out — proved
Modelled: add_node and add_edge for every `Ops`. Proof (`Frame.v`): marks on the edge slots are carried through the loops; splitting at a node skips a left-out edge that the node misses and appends only to the kept part (`frame_loop`), the list of cuts is the same (`frame_cuts`), new nodes are cuts (`unique_incl`), so the left-out edges miss every node throughout (`frame_points`). In the plane (`clear_unmet`) the cuts are points of the segment by C21. Removals are left out: remove_node counts the edges of a neighbour, left-out ones included.

Theorems: `C155_node` (none), `C155_edge` (none), `C155_history` (none), `C155_plane` (S N C F).

### C156 Removals look at indices only — proved
Modelled: remove_node, remove_edge and the index queries, for every `Ops`. Proof (`Blind.v`): each loop commutes with replacing the nodes, by induction, with the list lemmas of C154; series by induction (`regard_run`). `C156_blind` replaces all nodes of both graphs by one and the same node.

Theorems: `C156_calls` (none), `C156_queries` (none), `C156_history` (none), `C156_blind` (none).

### C157 The order of the edge slots — proved
Modelled: add_node, remove_node, remove_edge and the queries, for every `Ops`. Proof (`Shuffle.v`): rewritten and appended halves together are a permutation of replacing each split edge by its two halves (`split_flat`); the stray nodes are a permutation (`shuffle_strays`), and renumbering depends on the marked nodes as a multiset only (`perm_remap`); remove_edge takes out one occurrence (`nth_perm`, `swap_remove_perm`). That add_edge is different is shown by a witness.

Theorems: `C157_add_node` (none), `C157_remove_node` (none), `C157_remove_edge` (none), `C157_queries` (none).

### C158 The direction of the edges — proved
Modelled: add_node, remove_node, remove_edge and the queries. Proof (`Direction.v`): the triangle test is symmetric in the ends, since distances are symmetric and addition commutes, in f32 too (`on_turned`, from `Laws`); the two halves of a turned edge are the two halves of the edge exchanged (`pieces_upward`); stray nodes and renumbering do not see the direction (`other_upward`, `remap_upward`); removing either end of an edge that stands alone gives the same graph (`either_end`). The rest as for C157. That add_edge in f32 is different is shown by a witness.

Theorems: `C158_add_node` (none), `C158_remove_node` (none), `C158_remove_edge` (none), `C158_queries` (none).

### C159 Exactly which nodes add_edge makes — proved
Modelled: add_edge, split_edges_along_edge, unique_points_among, find_closest_to. The specification counts, for each cut, the cuts within epsilon (`alone`) and looks at the nodes before the call only (`vacant`). Proof (`NewNodes.v`): the double loop over indices is the filter by the count (`unique_filter`); two points that are kept are not close (`kept_far`), so the nodes made so far never hide a later point (`points_fresh`); the list of cuts is the one the loop collects (`cuts_crossings`). Order of the edges: the count is invariant under permutation (`alone_perm`).

Theorems: `C159_new_nodes` (none), `C159_any_order` (none).

## Findings

Where a property as first stated is false of the code, it is kept with its refutation (status "partial")
and the exact behaviour is a further, proved property.

1. `has_node_at_index(0)` / `has_edge_at_index(0)` are always false (C18).
2. `remove_node` on an isolated node panics (`unwrap` of the minimum of an empty list) (C13, C56).
3. `remove_edge` of the edge in the last slot panics when both ends survive (C15, C57).
4. A node whose only edge is a self-loop: removal renumbers the remaining edges wrongly or panics (C12, C56).
5. `unique_points_among` drops *all* members of a cluster of near-duplicates, so an edge drawn through a
   point where two other edges already cross gets no node there: planarity is lost (C09, C22, C58).
6. Splitting can store parallel edges, and the slot of the new edge may be missing from
   `add_edge`'s report (C08, C17).
7. `is_on_line_segment` ignores `include_endpoints` (C23, C59).
8. The `offset` of `calculate_perpendicular_bisector` is along x, not along the bisector; horizontal
   segments give non-finite points (C27, C60).
9. `calculate_line_intersection` intersects segments, not lines (C28, C61).
10. `triangulate` never returns for polygons without ears, which `Polygon::new` accepts; for
   self-crossing polygons the areas do not add up (C37, C64).
11. In f32 `Polygon::new` can return a polygon that is clockwise in exact arithmetic, and
   its own area test can be negative both ways (C32).
12. `wedge` of bivectors is the commutator product, not the exterior product (C41, C65).
13. `Rotor3::inverse` is the reversal: wrong for non-unit rotors (C43, C66); `from_vectors` does not normalise (C67).
14. `angle` can be NaN for finite non-zero f32 vectors: overflow, underflow, or quotient above 1 (C48).
15. `Line::contains`' tolerance scales with the direction's length; `Line::intersect` is always `None` (C51, C69).
16. `number_of_basis_blades(n, 0)` panics: `factorial(0) = 0` (C52, C70).
17. FOLD: `file_spec` 1.1 panics; four fields are lost in a save/load round trip; malformed JSON
   panics although the function returns `io::Result`; `validate` accepts everything (C53-C55, C71-C73).

## Mutation testing

`seeded/LOG.jsonl`: one line per wrong program tried.  Each mutant edits one model definition in a scratch
copy; every proof that breaks is admitted, the rest is rebuilt, and the property theorems that then rest on an
admitted proof are listed.  An empty list for an edit that changes behaviour means a theorem was too weak.

## Reproducing

`cd rocq && coq_makefile -f _CoqProject -o Makefile && make -j4`.
