# Formal model of eadf/linestring.rs in Rocq (Coq 8.16.1)

The properties are in `properties.jsonl` (C01..), their status in `MANIFEST.json`,
the Coq development in `rocq/theories`, mutation experiments in `seeded/LOG.jsonl`.

## 1. How the code is modelled

* Every Rust function becomes a total, computable Gallina function; each definition has a comment citing
  the file and lines of `/repo` it models and any simplification.
* **Outcome of a call.** `outcome A := Val a | Fail err | Panic | NoFuel`.
  `Fail` is a returned `Err(LinestringError::..)`, `Panic` a Rust panic (failed `assert!`, `unwrap` of `None`,
  index out of range), `NoFuel` says a loop has not finished after the given number of steps.
  Termination theorems exclude `NoFuel` for an explicit amount of fuel; non-termination is
  "`NoFuel` for every amount of fuel".
* **Scalars.** The crate is generic in `GenericScalar` (f32/f64). The model is parametrised by a record
  `Scalar` of *operations only* (no laws): `+ - * /`, negation, `sqrt`, `atan2`, `<`, `<=`, `==`, min/max,
  `is_finite`, `ulps_eq`, conversions. Theorems "for any scalar" quantify over every such record, thus
  also over IEEE floats with NaN. Instances:
  * `RS` - exact reals (stdlib `Reals`), `ulps_eq` is equality. Used for the geometric ("exact arithmetic") theorems.
  * `F64`/`F32` - IEEE binary64/32 as in stdlib `SpecFloat` (axiom free and computable), `ulps_eq` as in the `approx`
    crate. Used for refutation witnesses that run through the float semantics with `vm_compute`, and, through Flocq's
    correctness theorems, for exactness theorems on grids of floats.
  * `QS` - rationals, for exact witnesses about the sweep line, transferred to `RS` by a homomorphism (`SweepHom.v`).
  Some theorems use intermediate hypotheses ("`<=` is a total preorder on the values involved") which both meet for
  non-NaN values.
* **Nondeterminism** in the implementation becomes a universally quantified oracle:
  `sort_unstable_by` - any permutation of the input sorted by the comparator; `BinaryHeap::pop` - any element with minimal
  key; iteration order of a hash set - any permutation; rayon `reduce` - any binary tree over the chunks with the
  identity inserted anywhere.
* `usize` is `nat` (or `N` for step counts); overflow of `usize` is not modelled (needs > 2^63 elements).
* `Vec`, slices, `SmallVec` are lists; `AHashMap`/`BTreeMap` are association functions or sorted lists (in the sweep also
  any lawful search tree, see section 3);
  `Vob` is a list of bools; floats printed to text go through an abstract formatting function.

## 2. Trusted base

* Coq's kernel (8.16.1), including its `vm_compute` conversion.
* `Print Assumptions` beneath every theorem of the `Properties_*.v` files. Theorems over any scalar and over SpecFloat are
  closed under the global context. Theorems over the reals list the axioms of Coq's stdlib real numbers only:
  `ClassicalDedekindReals.sig_forall_dec`, `ClassicalDedekindReals.sig_not_dec`,
  `FunctionalExtensionality.functional_extensionality_dep`, and `Classical_Prop.classic` where the stdlib analysis lemmas use it.
  No axioms of our own, no other library's axioms.
* The reading of the Rust source: the model is a hand translation. Semantics of dependencies (`vector-traits`/`glam` vector
  operations, `approx::ulps_eq`, `vob::Vob::set`, `ahash`, `smallvec`, `rayon`, `std` sort/heap/BTreeMap) is assumed as documented.

## 3. Modelled / not modelled

| source in /repo | model | properties mainly in |
|---|---|---|
| `src/shape.rs`: whole file (adjacency map, `divide_into_shapes`, `unwind_line`, both stages, `VobMod`) | `Shape.v` | `Properties_Shape.v` |
| `src/linestring_2d.rs`, `src/linestring_2d/impls.rs`: `Line2`, `Intersection`, `LineString2`, `LineStringSet2`, `Aabb2`, `SimpleAffine`, `VoronoiParabolicArc`, `discretize_3d`, copies to 3D | `Geo2.v`, `Misc.v`, `Discretize.v`, `Parabola.v`, `Geo3.v` | `Properties_Isect.v`, `Properties_Box.v`, `Properties_Disc.v`, `Properties_Para.v`, `Properties_Misc.v` |
| `src/linestring_2d/simplify.rs`, `src/linestring_3d/simplify.rs`: RDP, Visvalingam-Whyatt, priority queue entries | `Simplify.v` | `Properties_Rdp*.v`, `Properties_Vw*.v` |
| `src/linestring_2d/convex_hull.rs`: every function | `Hull.v` | `Properties_Hull*.v`, `Properties_Float.v` |
| `src/linestring_2d/intersection.rs`, `indexed_intersection.rs`: both sweep lines, events, queue order, neighbour data, reports | `Sweep.v` | `Properties_Sweep*.v` |
| `src/linestring_3d.rs`, `src/linestring_3d/impls.rs`: `Line3`, `LineString3`, `LineStringSet3`, `Aabb3`, `Plane`, copies to 2D, `save_to_obj_file` | `Geo3.v`, `Misc.v`, `Obj.v`, `Discretize.v` | `Properties_Box.v`, `Properties_Disc.v`, `Properties_Obj.v`, `Properties_Misc.v` |
| `src/lib.rs`: `LinestringError` (its variants) | `Prelude.v` | everywhere |

Auxiliary files: `Scalar.v` (operations), `RInst.v`, `Flt.v`, `QInst.v` (reals, floats, rationals), `*Spec.v` (vocabulary of the
statements), `SweepHom.v` (a run over the rationals is a run over the reals), `HullSim*.v`, `FloatLink.v`, `FloatGrid.v`, `FloatHull.v`,
`FloatVw.v` (a run over floats on a grid is a run over the reals), `FloatRound.v`, `FloatRdp.v`, `FloatDist.v`, `FloatVal.v` (rounding error bounds and values of
computed distances), `FloatRdp2.v` (a float run as a run over the values of the computed distances); only these, the other
`Float*.v`, `Atan*.v`, five `Sweep*.v` and the float statements use Flocq, which adds no axioms.

Not modelled: `Display`/`Debug`/`Serialize` impls, allocation, `usize` overflow, panics inside user-supplied `Ord`, the
contents of error strings, real parallelism (only the algebraic freedom rayon has), file I/O errors (only the bytes
written on success). Rounding: float theorems are rounding-agnostic (any scalar), refutations, or about inputs on which no
rounding happens or only decides nothing (C104-C109), or a rounding error bound (C110, C117, C118, C119, C121, C123-C125),
or invariants that hold however results are rounded (C120, C122). `BTreeMap` in the sweep: Sweep.v keeps sorted lists searched
from the front; SweepTree.v is the same code over an arbitrary map that obeys what every search tree guarantees, and C126
proves that the two agree when keys are totally ordered, as they are in exact arithmetic. In floats the code's key order
tolerates a few units in the last place and is not transitive, and C120-C125, C127 and C128 are stated about SweepTree.v for every lawful map.
BTree.v, a model of std's B-tree (not code of /repo, written after std's source), is proved lawful; the panics, errors and repeated or empty reports of the theorems
named _refuted in C120, C121, C127 and C128 are evaluated with it, and so depend on its being faithful to std.

## 4. Plan per property

| id | property | modelled | proof |
|---|---|---|---|
| C01 | divide_into_shapes is total | Shape.v model of every function of shape.rs (adjacency map, termination/candidate lists, unwind_line, two stages, Vob with counter). | invariant of both stages; fuel = size of the graph; result is `Val`, no hypothesis on the input. |
| C02 | divide_into_shapes only follows input edges | as C01. | stage invariant: every window of every emitted shape is an adjacency entry; adjacency = input edges. |
| C03 | divide_into_shapes uses every edge exactly once | as C01; edges counted as unordered pairs. | invariant relating used edges to visited vertices/candidate arrays; NoDup + coverage at exit. |
| C04 | shapes are maximal chains | as C01; degree = number of distinct neighbours in the input. | same invariant. |
| C05 | divide_into_shapes bit vector | as C01. | visited = all degree-2 vertices at exit. |
| C06 | divide_into_shapes with self-loops | as C01. | refuted by two concrete edge lists (vm_compute). |
| C07 | RDP keeps a subsequence with both ends | Simplify.v over any Scalar; recursion on list length. | strong induction on the length; no scalar law is used. |
| C08 | RDP respects the tolerance (2D) | R instance. | induction: recursion splits at the farthest point or stops within tolerance; distance lemma C32. |
| C09 | RDP is idempotent | scalars with a total order on distances (R and non-NaN floats). | induction on the recursion: the kept farthest point stays farthest in the simplified list. |
| C10 | RDP drops only redundant points | R instance. | consequence of C08 with eps 0 plus fixpoint lemma. |
| C11 | indexed RDP agrees with RDP | indexed RDP model over any Scalar. | simulation between the two recursions. |
| C12 | indexed RDP on degenerate index lists | same. | refuted by witnesses; positive theorem for the empty buffer cases. |
| C13 | RDP respects the tolerance (3D) | Line3 model, R instance. | refuted by witness for segments; positive theorem: distance to the infinite line of a kept segment (or to the point). |
| C14 | VW removes exactly the requested number of points | VW model, heap as oracle. | loop invariant (linked list of live vertices, heap contains the current area of each live vertex). |
| C15 | VW keeps a subsequence and the end points | same. | same invariant, no order law needed. |
| C16 | VW is the greedy smallest-area algorithm | same, with total preorder law. | refinement to an independent greedy relation. |
| C17 | VW keeps closed lines closed | same. | refuted by witness; partial: closed lines stay closed when points_to_delete = 0 etc. |
| C18 | VW never panics on finite areas | same with Panic outcomes for BTreeMap/heap/NaN. | invariant. |
| C19 | VW in 3D | 3D VW model. | refinement; `last point kept` refuted by witness. |
| C20 | AABB contains its points | Aabb models over scalars with total preorder laws. | induction on the update sequence. |
| C21 | AABB is the smallest box | same. | same. |
| C22 | AABB updates are order independent | same. | min/max commutative monoid up to scalar equality. |
| C23 | AABB outline | R instance, hull model. | case analysis + nra. |
| C24 | degenerate AABB outline | R. | refuted by witness; exact characterisation of what is contained (`_partial`). |
| C25 | affine transforms are inverse | affine model. | field. |
| C26 | affine fit | R. | inequalities by nra. |
| C27 | affine never returns non-finite points | any Scalar. | case analysis; no law. |
| C28 | affine fit for tiny destinations | R/F64. | refuted by witness. |
| C29 | segment intersection is correct | Line2::intersection_point on R with explicit point-set spec. | case analysis by cross products, nra. |
| C30 | segment intersection is symmetric | same. | corollary of C29. |
| C31 | point on segment | R. | nra. |
| C32 | point to segment distance | R. | minimisation of a quadratic on [0,1]. |
| C33 | point to line distance in 3D | R. | same on the whole line. |
| C34 | ray against edge | R. | field/nra. |
| C35 | closest ray intersection | R; float_cmp via ordering. | induction over edges. |
| C36 | line string against line | any Scalar. | induction over edges. |
| C37 | straight lines are not self-intersecting | F64/R. | refuted by witness. |
| C38 | self-intersection of short lines | R. | partial: soundness pieces; refutation witnesses. |
| C39 | discretize keeps points and bounds steps | R, ceil via stdlib up/Int_part. | induction on edges, arithmetic. |
| C40 | discretize with non-positive step | F64 and R. | refuted by witness. |
| C41 | window and chunk iterators | any Scalar. | induction. |
| C42 | connectedness and point count | any Scalar. | case analysis. |
| C43 | 2D/3D copies are reversible | any Scalar. | computation. |
| C44 | line and line string copies agree | any Scalar. | XY/XZ proved, YZ refuted. |
| C45 | plane detection | R. | case analysis. |
| C46 | Graham scan computes the convex hull | R, sort oracle. | stack invariant of the scan on a radially sorted list. |
| C47 | hulls consist of input points | any Scalar. | membership invariants. |
| C48 | hulls are closed | R. | n>=4 proved, 3 points refuted. |
| C49 | indexed Graham scan | R. | same invariant on selected points. |
| C50 | indexed Graham scan with duplicates | R/F64. | refuted; positive theorem when no two indices select the lowest point (`_partial`). |
| C51 | gift wrapping terminates and computes the hull | R. | wrap invariant, strictly advancing angle. |
| C52 | gift wrapping with duplicates | F64, R. | refuted (start point twice; another corner twice); positive theorem when only non-corners are repeated (`_partial`, corner = strict support half-plane). |
| C53 | hull algorithms agree | R. | uniqueness of the strictly convex hull starting at the lowest point. |
| C54 | parallel hull | any Scalar; reduction trees. | refuted by witnesses incl. non-termination; exact hull proved (HullMerge*.v, induction over the reduction tree) when every task gets at most one chunk. |
| C55 | parallel hull returns input indices | any Scalar. | membership. |
| C56 | point in convex hull (inclusive) | R. | binary search invariant (point in the angular wedge). |
| C57 | point in convex hull (exclusive), soundness | R. | same. |
| C58 | point in convex hull (exclusive), completeness | R. | refuted; characterisation of exactly which interior points are missed. |
| C59 | containment in degenerate hulls | R. | refuted. |
| C60 | hull in hull | R. | corollary of C56. |
| C61 | orientation predicates | R. | ring/lra. |
| C62 | Graham scan without atan2 | R, sort oracle. | as C46 with the cross-product comparator. |
| C63 | sweep-line reports only real intersections | Sweep model over any scalar, theorem over R, hash order oracle. | state invariant. |
| C64 | sweep-line terminates | R. | event queue measure on the finite set of candidate points. |
| C65 | sweep-line output order | R. | queue invariant. |
| C66 | sweep-line finds shared end points | R. | queue invariant: end points are events with their lines. |
| C67 | sweep-line completeness in general position | R; F64 and rational runs for the counterexample (QInst, SweepHom carry a rational run over to R). | refuted as worded (row condition); positive theorem by the sweep-status invariant: neighbours after the current event have their meeting point queued. |
| C68 | sweep-line completeness | R, F64. | refuted (four witnesses); positive theorem under four conditions, same invariant. |
| C69 | stop at first intersection | any Scalar. | loop unrolling. |
| C70 | sweep-line rejects non-finite input | any Scalar. | induction. |
| C71 | indexed sweep-line | R. | refinement of the sweep invariant. |
| C72 | parabola sampling end points | any Scalar. | stack invariant. |
| C73 | parabola samples lie on the curve | R. | field. |
| C74 | parabola sampling error | R. | parabola chord lemma. |
| C75 | parabola sampling terminates | R. | interval bisection measure. |
| C76 | parabola sampling of zero-length arcs | F64. | NoFuel for all fuel. |
| C77 | obj export refers to the right vertices | abstract formatter; map from formatted vertex to id. | fold invariant. |
| C78 | lowest point | any Scalar / R. | induction. |
| C79 | approximate line equality | any Scalar with symmetric reflexive comparison. | case analysis. |
| C80 | small crossings are misjudged in floating point | F64. | refuted by witness. |
| C81 | straight line version of an arc | R. | unfolding, distance to a closed segment. |
| C82 | hull depends only on the set of points | R, sort oracle. | uniqueness of the hull (HullUniq). |
| C83 | a hull contains its own points | R. | C46 and C56. |
| C84 | the hull is the smallest convex region | R. | fan decomposition of an inside point. |
| C85 | self-intersection of long line strings | R; F64 and rational run for the counterexample. | corollary of C63, C64, C68, C69. |
| C86 | indexed sweep-line completeness | R. | the completeness invariant through the lock-step simulation of the indexed finder. |
| C87 | adding lines in several calls | F64 witness; any scalar for the options. | refuted by witness; unfolding. |
| C88 | intersections involve two lines | F64 witness; R. | refuted by witness; result invariant. |
| C89 | self-intersection is kept when a point is added | R. | refuted by witness; corollary of C85. |

No property had to be excluded as inexpressible.
| C90 | box containment is exact | R; F64 witness for the difference. | refuted in f64 by witness (ulps comparison); coordinate case analysis. |
| C91 | box accessors | R (accessors), any scalar (empty box). | corollary of the construction-history invariant of C14. |
| C92 | transforming a box | R witness; any scalar with ordered values. | refuted by a mirror map; proved (and tight) for maps monotone in each coordinate. |
| C93 | 3D box from two corners | R witness; any scalar. | refuted by witness; proved for a first corner that is nowhere greater. |
| C94 | documented unit of the simplification tolerance | R. | refuted by witness (the code squares the threshold); corollary of C08 up to threshold 1. |
| C95 | iterators step by step | any element type; iterators as state machines. | induction on the number of calls. |
| C96 | apply on line strings | any scalar; R for closedness. | induction; closedness refuted in f64 by 0 and -0. |
| C97 | single and closest intersection point | R. | corollary of C29. |
| C98 | box equality | F64 witness; any scalar; R. | transitivity refuted by witness; the rest by cases. |
| C99 | size_hint of the window iterators | any element type. | refuted by witness (the default (0, None)); it is a correct bound. |
| C100 | simplification tolerances are nested | any scalar, NaN included; corollaries for R, f32, f64. | induction on the recursion of the smaller tolerance. |
| C101 | simplification of moved and scaled lines | R. | Stewart's identity: the tested distances scale; induction on the recursion. |
| C102 | more deletions keep fewer points | any scalar, NaN included. | lock-step induction on the loop: the longer run continues the shorter one and link-table keys only shrink. |
| C103 | Visvalingam-Whyatt under affine maps | R. | all triangle areas are multiplied by one number; simulation of the loop with scaled keys. |
| C104 | float orientation is exact on a grid | Flt.v instances of Hull.v, related to the reals through Flocq (FloatLink.v, FloatGrid.v). | every intermediate result is an integer multiple of a power of two below 2^prec, so rounding is the identity. |
| C105 | float gift wrapping returns the exact hull | Hull.v at the float instances. | the run on the floats is the run on their real values, step by step (HullSim.v), then C51. |
| C106 | the float scan without atan2 returns the exact hull | Hull.v at the float instances. | HullSim2.v: same comparisons as over the reals; then C62. |
| C107 | float convex_hull is exact when atan2 orders the directions | Hull.v at the float instances, atan2 a parameter. | HullSim2.v: same comparisons as over the reals; then C46. |
| C108 | float containment is exact on a grid | Hull.v at the float instances. | the run on the floats is the run on their real values; then C56, C57, C60. |
| C109 | float Visvalingam-Whyatt is the exact greedy algorithm on a grid | Flt.v instances of Simplify.v and Geo2.v, Geo3.v. | areas are monotone in an exactly computed integer, so the computed order is the exact order (FloatVw.v); then C16, C17, C19. |
| C110 | float Ramer-Douglas-Peucker keeps its tolerance up to a machine epsilon | Flt.v instances of Simplify.v and Geo2.v, Geo3.v. | numerator and denominator of the squared distance are exact or within one rounding; Flocq's relative error bounds (FloatRound.v, FloatRdp.v). |
| C111 | hulls of moved, scaled and sheared points | R instance of Hull.v.. | hull_result is preserved by the map and determines the result (uniqueness).. |
| C112 | points between other points do not change the hull | R instance of Hull.v.. | hull_result for the smaller list implies it for the larger; uniqueness.. |
| C113 | the hull of a hull is the hull | R instance of Hull.v.. | refuted for single points (empty result), triangles and segments (returned open, starting elsewhere); proved for hulls with four or more corners.. |
| C114 | more points, a larger hull | R instance of Hull.v.. | C46 and C60.. |
| C115 | divide_into_shapes depends only on the set of edges | Shape.v.. | uniqueness of the decomposition into maximal chains (ShapeUniq.v), then matching of the two lists.. |
| C116 | line constructors agree | Misc.v, Geo3.v, any Scalar.. | computation.. |
| C117 | float segment intersection has the exact kind | Flt.v instances of Geo2.v.. | cross and dot products are exact on the grid, rounding is monotone and a quotient above 1 stays above 1; Flocq's half-ulp bounds for the coordinates (FloatIsect.v).. |
| C118 | float point-on-segment test | Flt.v instances of Geo2.v.. | relative error of the computed lengths (Flocq), bit distance against real distance of floats, 4*dist^2 <= (|ap|+|pb|)^2-|ab|^2, and an integer cross product is at least one step (FloatPoint.v).. |
| C119 | Rounding never changes whether a short line string on a grid is reported as self-intersecting | Geo2.self_intersecting_short over the SpecFloat instances; FloatSelf.neighbours_hit is the exact condition on neighbours. | FloatSelf.v: ulps-equality to two different grid values is impossible (ulps_two), distinct slopes of grid vectors differ by more than 4 ulps (slopes), infinite slopes are never ulps-equal to finite ones; with C117 for the pairs that are not neighbours. |
| C120 | The sweep never panics in f32 or f64 | SweepTree.v (any lawful ordered map; BTree.v is std's) over the SpecFloat instances (F64, F32), atan2 left arbitrary. | SweepMapEq.v: with consistent keys every lawful map behaves as the sorted list of Sweep.v; SweepAny.v/SweepFlt.v: an invariant of the event loop over that list; SweepAny2.v/SweepAny3.v: an invariant that needs no consistency. The panics are evaluated. |
| C121 | The sweep succeeds on coordinates of moderate size | as C120; Geo2.intersection_point in floats. | FloatBound.v: magnitude bounds through every operation of intersection_point (Flocq); the parallel branch divides by a squared length that the ulps test keeps above a quarter of 2^(2 epsilon); with C120 and C122; SweepMapEq.v for the map. |
| C122 | The sweep terminates in f32 and f64 | as C120. | SweepTerm.v: every queued event is later than the one being handled in the exact order of the coordinates, and the number of distinct events still possible decreases in a multiset order; SweepMapEq.v for the map. |
| C123 | Reported intersections are real in f32 and f64, up to a stated error | as C120, with C117 for the computed points. | SweepGrid.v: keys merged by the ulps comparison stay within a fixed distance; SweepAny2.v/SweepAny3.v: an invariant of the event loop over any lawful map: every line an event or a report lists passes near its key, however searches end. |
| C124 | Shared end points are reported in f32 and f64 | as C123. | SweepAny4.v: the lines that end at one point wait together in one event; updates of the queue keep them, removing that event reports them all in one entry, two key comparisons away; SweepGrid.v bounds each comparison. |
| C125 | With end points ignored, only real crossings are reported in f32 and f64; long line strings | as C123. | SweepQuiet.v: if no interior point is shared, computed points are exactly the shared ends, so every event lists only lines that end there; SweepCons.v: then all keys are grid points, on which the comparison is a total order. |
| C126 | The sweep does not depend on the ordered map | SweepTree.v: the sweep over a record of map operations; BTree.v: std's B-tree (node capacity 11, splits, merges, steals). | SweepMapEq.v: on totally ordered keys the place a lawful search ends is unique; BTreeProofs.v: the B-tree is lawful, by induction on its height. |
| C127 | A report lists two different lines in f32 and f64 | as C120. | C123's invariant with 'empty or two' for the lists; with consistent keys the list run of Sweep.v. The empty report is evaluated. |
| C128 | No point is reported twice in f32 and f64 | as C120. | SweepMapEq.v: with consistent keys the result stays sorted through every update of a lawful map. The repetition is evaluated. |
| C129 | Hull of three points | Hull.v. | HullThree.v: case analysis on the orientation, abstract in the orientation test; Properties_Hull4.v instantiates it for reals and for floats through C104. |
| C130 | Centre and size of a box in f32 and f64 | Geo2.v, Geo3.v over the float instances of Flt.v. | FloatBox.v: rounding the sum and then half of it equals rounding the exact half (exact sums in the subnormal range, scaling above it); monotonicity of rounding. The overflow is evaluated. |
| C131 | A line string against a line | Geo2.v. | Properties_Isect3.v: induction over the edges with C36, the edge answer from C29 (exact) or C117 (floats). |
| C132 | Affine transforms in f32 and f64 stay close to the exact ones | Geo2.v over the float instances of Flt.v. | FloatAffine.v: forward error analysis of every operation with Flocq (the sizes and the centre are correctly rounded, five roundings follow). |
| C133 | Discretizing keeps the corners and the step in floating point | Discretize.v over the SpecFloat instances F64/F32; fl_ceil and fl_to_usize of Flt.v. | Forward error analysis of length, quotient, step and point (FloatDisc.v) through Flocq; the claim without the range hypothesis is refuted: an infinite step, or a finite one so large that the quotient underflows, drops corners.. |
| C134 | Indexed Graham scan and parallel hull in floats | the functions of Hull.v run in the float instance; the run is mapped step by step to the exact run (HullSim2.v, FloatPar.v), where C49 and C54 apply. | simulation: orientation, distance and lowest-x tests agree with the exact ones on the grid. |
| C135 | The atan2 scans are exact for an accurate atan2 | as C134; accurate_atan2 is in AtanSpec.v; directions from a lexicographically smallest point with integer coordinates up to 2n are at least 1/(8n^2) apart (AtanSep.v). | sin x < x bounds the angle below by cross product / product of lengths; the error bound then preserves the order. |
| C136 | Reported intersections do not depend on how the lines are numbered, directed, placed or scaled (exact arithmetic) | Sweep.v with the real-number instance; two runs side by side with their own hash orders (SweepSym2.v). | exact description of one event step (SweepExact.v, SweepSym.v) and a simulation between the two runs: queues, active sets and results correspond under f and the movement; the reported point of an overlap is its leftmost point. |
| C137 | Two runs on the same lines report the same intersections | Sweep.v, SweepTree.v with std's map for the refutation. | exact arithmetic: corollary of the simulation of C136. f64: a run by computation with two orders; ulps_eq is not transitive, so which neighbours are grouped depends on the order. |
| C138 | Mirrored, turned or sheared lines have the mirrored, turned or sheared intersections | Sweep.v. | refutations by computation in f64 with small integers; the positive part from completeness (C68) for both sets of lines. |
| C139 | Self-intersection does not depend on where the line string lies, its scale or its direction | Sweep.v is_self_intersecting, Geo2.v self_intersecting_short. | ten and more points: corollaries of C136 (the reversed line string has the edges renumbered and reversed); fewer: pairwise test scales; refutations by computation. |
| C140 | closest ray intersection in floats | Geo2.v over the IEEE scalars of Flt.v.. | FloatRay.v: the cross products are exact on the grid, the quotients are rounded once, the fold keeps a least rounded parameter.. |
| C141 | segment intersection depends only on the common points | Geo2.v over RS; over F64 for the refutation.. | IsectSym.v: correctness (C29) fixes the set of points, a segment determines its ends, and the parallel branch always runs along the lexicographically positive direction.. |
| C142 | line string intersections and representation | Geo2.v over RS.. | C141 for each edge; windows of reversed and mapped lists; induction over the edges for the two-point loop.. |
| C143 | rays and representation | Geo2.v over RS.. | IsectSym.v: the parameter of each edge is invariant; the fold yields the least positive parameter whatever the order.. |
| C144 | simplifying a line given backwards (Ramer-Douglas-Peucker) | Simplify.v, Geo2.v, Geo3.v over RS; over F64 for the refutation. | RdpRev.v: induction over the recursion tree: the unique farthest point splits the reversed line at the same place; the chord distance does not depend on the direction. |
| C145 | Visvalingam-Whyatt: direction and heap do not matter | Simplify.v with the heap as a choice function. | VwRev.v: greedy deletion without ties is deterministic and commutes with reversal; C16, C19 connect it to the code. |
| C146 | discretizing: backwards, again, moved, planar | Geo2.v, Geo3.v iterators over RS. | DiscSym.v: the yielded list is the only one with the shape C39 gives, and that shape is kept by reversal, by repetition and by similarities. |
| C147 | hulls under every invertible affine map | Hull.v over RS. | HullAff.v: the corners are exactly the exposed points, a notion kept by invertible affine maps; orientations are multiplied by the determinant; the hull of points has one set of sides (HullUniq.v). |
| C148 | containment under affine maps and any start | Hull.v over RS. | HullSim.v: the code sees points only through equality and orientation tests; HullAff.v: insideness of hulls is an intersection of half planes; ContainProofs.v: rotation keeps convexity and insideness. |
| C149 | parabolic arcs: segment, direction and similarities | Parabola.v over RS. | ParaSym.v: the loop is a simulation of itself under linear changes of the parameter; the stack loop is a recursive halving whose test is symmetric. |
| C150 | distance to a segment or line as a function | Geo2.v, Geo3.v over RS. | Properties_Dist.v: from C32 and C33 (the value is the least squared distance over the segment or line), the triangle inequality, and similarities keeping division points. |
| C151 | parabola sampling ends in f64 and f32 | Parabola.v over FloatS and RS. | Properties_Para3.v with ParaTree.v: if the descent of midpoints repeats, the loop never ends; the repetition is computed in SpecFloat by the kernel. |
| C152 | a larger tolerance keeps a subsequence of the samples | Parabola.v over any Scalar. | Properties_Para3.v with ParaTree.v: the loop is a recursive subdivision; a larger tolerance cuts the recursion off earlier. |
| C153 | simplifying a discretized line | Simplify.v, Discretize.v over RS. | RdpRefine.v: the squared distance to a chord is convex along an edge, so the last farthest point is always a corner; induction on the recursion. |
| C154 | Visvalingam-Whyatt removes added points first | Simplify.v, Discretize.v over RS. | VwRefine.v: as long as an added point is left a triangle of area zero is, and the triangle of a corner never has area zero. |
| C155 | bounding boxes of derived lines | Geo2.v, Geo3.v, Discretize.v, Simplify.v, Hull.v over RS. | Properties_Box4.v: a half plane that contains the corners contains the added points and, by minimality of the hull (C84), all points; C08 for the simplified line. |
| C156 | intersections of a discretized line | Geo2.v, Discretize.v over RS and F64. | DenserIsect.v: the pieces of an edge cover the edge (a walk from one end to the other passes over every point); correctness of the segment intersection (C29); least positive ray parameter. |
| C157 | hulls of derived lines | Hull.v, Discretize.v, Simplify.v, Geo2.v over RS. | Properties_Denser2.v: added points are spanned by the corners (C112), simplified lines are sublists (C07, C15, C114), the outline satisfies the specification of the hull, which has one solution. |
| C158 | computed distances | Flt.v, Geo2.v, Geo3.v over f64/f32. | FloatDist.v: differences and products are exact, the choice between ends and perpendicular is right, one rounding each for square, sum and quotient. |
| C159 | straight lines in floats | Flt.v, Geo2.v, Geo3.v, Simplify.v over f64/f32. | FloatDist.v: upper bound of the computed distance (C158) against the lower bound of the computed squared tolerance. |
| C160 | float lines given backwards | Flt.v, Geo2.v, Geo3.v, Simplify.v over f64/f32. | FloatVal.v: the computed distance of a grid point is a function of the exact points which is symmetric in the ends of the segment; FloatRdp2.v: transport of the float recursion to that function over the reals, where the reversal theorem holds. |
| C161 | float lines scaled by a power of two | Flt.v, Geo2.v, Geo3.v, Simplify.v over f64/f32. | FloatVal.v: each rounding of the computed distance commutes with a power of two (no underflow or overflow on the grids); FloatRdp2.v: the recursion takes the same decisions. |
| C162 | float lines moved, turned and mirrored | Flt.v, Geo2.v, Geo3.v, Simplify.v over f64/f32. | Properties_FloatDist3.v: on the grids the computed distance is a function of the exact mutual distances (2D) or of the squared components of the exact cross product (3D); FloatRdp2.v: equal computed distances give the same decisions. |
| C163 | float Visvalingam-Whyatt under affine maps and backwards | Flt.v, Geo2.v, Simplify.v over f64/f32. | Properties_FloatVw2.v: both runs are exact greedy deletions (C109); greedy deletions of the image are images of greedy deletions; without ties they are unique. |
