# Formal model of rh12503/triangula in Rocq (Coq 8.16.1)

## Approach

The model is a set of executable Gallina functions under `rocq/theories/`, one
section per Go function, each with a comment citing file and lines in `/repo`.
Go values are modelled as follows.

* `float64`/`float32`: IEEE-754 binary64/binary32 from Flocq (`BinarySingleNaN`),
  round to nearest even, one NaN. This matches Go on amd64, where the compiler
  does not fuse multiply-add. (On arm64 Go may fuse; then results may differ.)
* `int16`, `uint8/16/32/64`, `int64`: integers in `Z` with explicit wrap-around
  wherever the code can wrap; `int` is `Z` with explicit 64-bit wrap only where
  noted (elsewhere the theorem's range hypotheses keep it far from 2^63).
* slices: lists; where aliasing is the subject, a store of arrays and slice headers.
* panics: `None`; non-termination: fuel exhaustion, also `None`/explicit.
* random sources, worker schedules, `sort.Sort`'s choice among equal elements and
  third-party code: universally quantified oracles.

Theorems are in the `P_*.v` files: only statements, each closed with `exact`,
followed by `Print Assumptions` and a non-vacuity example.

## Trusted base

* Coq's kernel (8.16.1), including its virtual machine (`vm_compute`), and the installed
  libraries Flocq 4.1.0 and the standard library.
* That the model says what the code does. Every definition of an `M_*.v` file cites the
  lines it models; the simplifications are listed below.
* Go's semantics as written down in `GoNum.v`: amd64 conversions from `float64` to
  integers, wrap-around, IEEE operations without fusing.
* Axioms. The development adds none. `Print Assumptions` stands after every theorem of
  the `P_*.v` files. It prints either "Closed under the global context" or a subset of
  four axioms of the standard library, which come with Coq's real numbers (used by
  Flocq's correctness theorems):
  `ClassicalDedekindReals.sig_not_dec`, `ClassicalDedekindReals.sig_forall_dec`,
  `FunctionalExtensionality.functional_extensionality_dep`, `Classical_Prop.classic`.
  The last section lists them per theorem.

## What is modelled

| Go file | model | remarks |
|---|---|---|
| normgeom/normpoint.go | M_Norm, M_Slice | all; Set and Copy on a heap of arrays |
| geom/*.go | M_Geom | all |
| mutation/*.go | M_Norm, M_Default | Gaussian and random method; the random source is an oracle; the Gaussian method also with the generator's state threaded |
| generator/*.go | M_Norm, M_Spaced | random and spaced generator; oracle source, math.Pow an oracle |
| random/random.go | M_Random | NormFloat64 with its tables; go-pcgr, `math.Log`, `math.Exp` are oracles |
| color/color.go, image/rgbdata.go | M_Image | all |
| fitness/pixels.go, util.go | M_Image | all |
| rasterize/*.go | M_Raster | all; a rasteriser returns the list of calls of its callbacks |
| render/*.go | M_Render | all |
| fitness/cache.go, triangles.go | M_Fitness, M_MemRun (pointers into one memory), M_Fine (step by step) | triangle cache, Calculate, Update, incremental triangulation |
| algorithm/evaluator/parallel.go | M_Fitness, M_MemRun, M_Fine and M_PFine (Update step by step) | all |
| algorithm/evaluator/evaluators.go | M_Algo, M_Generic | the interface, as an abstract evaluator; NewOne, NewMany |
| fitness/function.go | M_Generic | a state and a transition function |
| algorithm/simple.go, modifiedgenetic.go | M_Algo, M_Chan, M_FineRun and M_PFineRun (workers step by step), M_Shared (initial groups that share an array) | all but the timing statistics; goroutines and channel as a transition system |
| triangulation/triangulator.go | M_Geom, M_Draw | all; the third-party delaunay.Triangulate is an argument |
| incrdelaunay/delaunay.go, geom.go, grid.go, util.go | M_Delaunay, M_Fitness (Set), M_Heap (Set on slices), M_Mem (all that writes, on slices with the scratch buffers) | all |
| incrdelaunay/pointmap.go, polygonmap.go | M_Delaunay | all |
| incrdelaunay/voronoi.go | M_Voronoi, M_Polygons (Set), M_Cells (on slices) | all |
| polygonation/polygonate.go | M_Voronoi | all |
| fitness/polygons.go | M_Polygons, M_Cells (coordinates on slices), M_PFine (step by step) | all |
| utils/default.go | M_Default | all |
| utils/fitness.go, output.go, trace.go, profile.go, compare.go | M_Utils | all but what output.go prints on the console; bufio's writer is modelled, the texts of floats, the clock and the pieces of a trace are oracles |

Not modelled: `utils/utils.go` (prints memory statistics), the test files, `String`
methods, timing (`Stats`), memory limits, the Go scheduler beyond interleaving.

Simplifications, all noted at the definitions too:

* Slices are lists except where aliasing matters (M_Slice, M_Heap, M_Cells, M_Mem, the cache arrays and
  members of M_Fitness, Best's buffer in M_Algo).
* The free list of a triangulation is kept in reverse.
* `sort.Sort` is any function that returns a sorted permutation (algorithms). `sort.Slice` in
  Remove is a function argument of `remove`: any permutation (C41-C43), or any function that
  sorts (C48; `sorts` in S_Remove). The comparison panics on equal angles, so C48 assumes that
  `sort.Slice` never compares an element with itself; insertion sort, which it uses up to 12
  elements, is shown to qualify.
* `sort.Slice` in voronoi.go is an argument too (`sorter_ok` in S_Voronoi): any function that
  permutes and panics only if the comparison panics on two different elements; up to 6 elements
  it is insertion sort, as in every version of the library. C84 also assumes `sorts` (S_Order): it
  sorts whenever the comparison is a strict total order on the elements; C84_sort shows that the
  insertion sort of the model meets both.
* A loop that may not end takes fuel; running out of it is `None`, like a panic. Theorems
  of success therefore also prove termination.
* The pixel-counting fields of Go's structs are integers of `Z`, with a wrap where the
  code's type is narrow enough to matter for the stated ranges.

## Layout

`GoNum.v`, `FloatLemmas.v`: numbers. `M_*`: model. `S_*`: specification, which does
not use the model's helpers. `L_*`: lemmas. `P_*`: the theorems of the properties, their
assumptions and the concrete cases. Names of theorems start with the property; a
name ending in `_refuted` is a proof that the plain reading of a property is false outside
the stated range, with a witness.

## Findings

What the proofs showed about the code, beyond the properties that hold:

* **C13** the stored squares of pixels are not exact: they can be one too small (colour (7,0,0)).
* **C14** a block size of 17 or more wraps the 16-bit block sums.
* **C18** block size 0 makes the block rasteriser loop forever.
* **C24** calling Calculate twice without Update, then Update, can panic.
* **C26** a triangle score can be negative and the fitness above 1 because of C13; on triangles of more than 6876000 pixels the score can overflow int64.
* **C28, C36** modifiedGenetic with fitnesses equal to 0 can evaluate a member on another member's
  triangulation and write a cache array while workers read it.
* **C29** an empty cache panics at the first triangle; with cachePowerOf2 = 0 the first Update panics.
* **C30** with cutoff 0, newGeneration of modifiedGenetic does not return. With a cutoff above the number of members Step panics (C30_many_bases_panic).
* **C31** with negative fitnesses, Best of modifiedGenetic is a member that was never evaluated.
* **C35** with nothing to submit (cutoff >= size, or an empty population) the receive loop is never left.
* **C39** the multiplicity of a point wraps at 65536.
* **C41** NumPoints is not copied by Set.
* **C44, C45, C46** the look-up grid misses circumcircles on large images (8190x8190), and the
  triangulation is then neither Delaunay nor a tiling.
* **C49** Set of a triangulation to itself uncovers stale elements.
* **C50, C57** the coordinates of the enclosing triangle wrap for images beyond 13106; at 8192x8192 inserting the far corner already loses it; on a 1x1 image every Insert panics.
* **C51** on a 3x3 image GetClosestTo can return a corner of the enclosing triangle.
* **C60** modifiedGenetic with members of fitness 0 (no visible triangle, for example two points each) can panic with
  "point doesn't exist" (pointmap.go:59): a member that was never evaluated is sorted first, SetBase leaves the
  old points, and the next moved point is removed from a triangulation that does not hold it. This needs a sort
  that swaps equal elements.
* **C62** Voronoi cells do not cover the image: with one point there is no polygon, and corners of the image
  are lost when a cell crosses only one border (or two opposite ones).
* **C64** Polygonate, Voronoi and IVoronoi panic (voronoi.go:159, 375) for (664,666), (36,3), (603,944),
  (603,388) in a 1000x1000 image: two float32 circumcentres lie in the same direction from a point.
* **C66** The score of a polygon is not always that of its pixels: a nearly collinear fan triangle has a line whose
  ends come out reversed, its length is subtracted from the number of pixels, and the score becomes negative.
* **C67** Pixels no polygon covers cost nothing: one point has no polygon and the fitness 1 on every image.
* **C69** The points of C64 make NewSimple panic on every 1000x1000 picture, inside a worker goroutine.
* **C72** A nearly flat triangle at the border can be drawn without being scored: its circumcircle contains a corner of the enclosing triangle. Three points in a line but one pixel are drawn as a triangle and scored as nothing.
* **C71** The evaluator NewMany does not work with the functions of the package: a function whose SetBase is never
  called returns the fitness of the first points it saw for all points, so a run never makes progress.
* **C56** NormFloat64 is infinite if Float32 returns 0 twice in the tail. The mutator survives that (C73): Constrain maps infinities to the border.
* **C73** DefaultAlgorithm panics on images of fewer than 4 rows, or fewer than 4 columns and more than 4 rows (a slice of negative length in newPixelDataN).
* **C88** modifiedGenetic is not reproducible from a seed: with two equally fit mutations of one point, the order in which
  the workers report decides which one the combined member gets, and with it Best. The simple algorithm is reproducible.
* **C80** Voronoi hands its scratch slices to the callback: a callback that keeps a polygon finds it overwritten with later cells (Polygonate, the only caller, copies at once).
* **C95** The comparison of cell vertices is not transitive, as sort.Slice requires: directions that differ by less than the products are rounded by are taken for equal. Whether the first sort panics then depends on the order in which it finds the vertices.
* **C96** NewSimple and NewModifiedGenetic keep the slices newPointGroup returns without copying them: if it returns one slice twice, BestFitness is not the fitness of Best after two Steps.
* **C97** modifiedGenetic with a population of at most twice the cutoff (simple: at most the cutoff) runs without complaint but never mutates a point. Nothing in the constructors checks the parameters.
* **C98** Best may be written to between Steps; the slices newPointGroup returned may not (BestFitness is then not the fitness of Best).
* **C99** With equal fitnesses, which member becomes Best (and which are kept) depends on the swaps of sort.Sort, which is not stable.

## How the theorems were tested

`seeded/LOG.jsonl` records deliberate mistakes put into the model, one at a time, in a
scratch copy: which definition was edited, which claim should break and which
theorems no longer compiled. Where a mistake went unnoticed, the theorem was tightened.
`failed` is what was observed: the theorem at which the build of each file stopped.
`property_files_that_import_a_failed_file` is not observed but computed from the imports of the
current files, so it also names files written after the attempt. Where a definition that had
survived was tried again after a theorem was tightened, both attempts are listed.

## Plan per property

* **C01 Constrain clamps a normalised point** - Model float64 as Flocq IEEE binary64; `Constrain` as two nested comparisons. Case analysis on the comparison results.
* **C02 Set and Copy copy point groups without aliasing** - Slice model: store of arrays, slice = (array id, offset, len, cap). Frame lemmas for writes.
* **C03 Mutation log is exact** - Mutate = recursion over the group consuming a stream of draws; induction on the group.
* **C04 Mutated points stay inside the unit square** - Same model; sums in binary64 then Constrain; induction.
* **C05 Generators return n points in the unit square** - Generators as functions of an oracle stream of floats in [0,1); induction on n / iterations.
* **C06 Spaced generator only moves a point to a roomier place** - One iteration of the spaced generator as a function; closestTo by induction on the group with float distance.
* **C07 Fan triangulation preserves the polygon** - Fan as list function; telescoping induction in Z.
* **C08 Normalising a pixel point and rounding it back is lossless** - Flocq error analysis of fl(fl(x/w)*w) then rounding to nearest integer.
* **C09 Fitness rounding and render rounding agree** - Flocq: exactness of x+0.5, case split at 1/2; exceptional double by computation.
* **C10 Average colour is well formed** - Flocq monotonicity of rounding: partial sums bounded by the integer count.
* **C11 ToData reproduces the image** - Image as function on coordinates; ToData builds a list of rows.
* **C12 8-bit channels survive the trip through floats** - Finite sweep over 256 channel values, lifted by forallb.
* **C13 Stored square sums are exact or one too small** - Per-channel real enclosure (256 cases by computation) then rounding of the 3-term sum.
* **C14 Block sums equal sums of pixels** - uint16/uint32 accumulators with explicit wrap; induction on the block loops.
* **C15 Line rasteriser visits every row once** - Rasteriser returns the list of line events; rows by construction of loops.
* **C16 Rasterised rows stay inside the triangle's bounding box** - Flocq error bound for slope*k+x versus the exact rational edge; separation of distinct rationals.
* **C17 No pixel is emitted twice** - Rows distinct (C15) and each row duplicate-free.
* **C18 Block rasteriser covers exactly the same pixels as the line rasteriser** - Loop invariant over the block loop with telescoping of row spans; monotonicity of rounding.
* **C19 Rasterisation does not depend on vertex order** - Characterise rows by edges: left/right edge determined by geometry.
* **C20 Rasterisation is watertight** - Signed edge-indicator identity for a triangle; cancellation of opposite directed edges.
* **C21 Polygon rasterisers agree with each other and with the fan** - Lift C18 over the fan.
* **C22 Rendering triangles never leaves the image and yields valid colours** - C15/C16 for bounds, C10 for colours.
* **C23 Rendering polygons never leaves the image and yields valid colours** - As C22 over the fan.
* **C24 The variance cache is transparent** - Cache as arrays of entries; invariant: every entry's value is the computed variance of its key; result equality.
* **C25 Triangle score is computed from exactly the triangle's pixels** - C18 + C14: block sums regrouped as pixel sums.
* **C26 Per-triangle variance bound** - Cauchy-Schwarz in Z; refutation by computation for the squares as stored.
* **C27 Re-evaluating an unchanged member gives the same fitness** - Corollary of C24: state not touched apart from the cache.
* **C28 Incremental evaluation triangulates the member's own points** - Point multiset of the triangulation tracked through Set/Remove/Insert; history induction; refutation of the unprotocolled use.
* **C29 Cache look-ups stay in range** - Arithmetic on land with mask in Z with 64-bit wrap.
* **C30 Population keeps its shape** - Algorithm state machine over abstract evaluator; invariant by induction on steps.
* **C31 Best and BestFitness describe the fittest member** - Same; sort.Sort modelled as an arbitrary swap sequence after which the slice is sorted.
* **C32 Simple algorithm never loses its best result** - Same; elitism argument.
* **C33 Modified genetic algorithm never loses its best result** - Same with positivity hypothesis.
* **C34 Combined member gets the fittest mutation for each point** - setBeneficial as fold over arrivals; argmax invariant per point index.
* **C35 Every generation's fitness gathering terminates** - Small-step transition system of workers, buffered channel, collector; invariant + progress + measure.
* **C36 Shared caches are never written while a worker reads them** - Small-step system with array ids; invariant.
* **C37 Bases survive unchanged** - Same model as C32.
* **C38 Best() is a live view** - Store model of Best's buffer.
* **C39 Point map is a multiset** - Refinement of the bucket table to a multiplicity function.
* **C40 Polygon map is a map keyed by points** - Refinement as C39.
* **C41 NumPoints counts insertions minus removals** - History induction; refutation for Set by computation.
* **C42 Triangle slots and free list stay consistent** - Invariant over slots/free list.
* **C43 Grid and triangle list agree** - Invariant over slots/grid cells.
* **C44 Grid look-ups find every triangle whose circumcircle contains the point** - Flocq binary32/64 error analysis; refutation by computation.
* **C45 Triangulation is Delaunay** - Abstract Bowyer-Watson invariant; algebra of the circle pencil (nra/psatz on Z).
* **C46 Triangles tile the plane region** - Edge-cancellation (chain) argument with half-open triangle membership.
* **C47 Visible triangles connect inserted points** - Invariant; local fan argument at a vertex.
* **C48 Remove undoes Insert** - Devillers ear removal; projective/inversion argument.
* **C49 Delaunay.Set makes an independent copy** - Slice store model.
* **C50 The enclosing triangle encloses the image** - Arithmetic with wrap16; refutation by computation.
* **C51 GetClosestTo returns a nearest corner** - Fold minimum.
* **C52 Voronoi cells stay inside the image** - Case analysis on clipping with float monotonicity.
* **C53 Polygonate returns clean pixel polygons** - C52 + rounding; dedup loop.
* **C54 Incremental Voronoi keeps one cell per point** - Invariant on keys; a step of the triangulation replaces triangles (`replaced` in L_Insert.v) and only the cells of their corners change.
* **C55 Area is the absolute shoelace area** - Exactness of small-integer float arithmetic; permutation lemmas in Z.
* **C56 Normal random numbers index the tables safely and are bounded on the fast path** - Finite sweep over 128 table entries; two's complement mask lemma.
* **C57 Small images** - Arithmetic; refutation by computation.
* **C58 Triangles of a triangulation never share a pixel** - C46 combined with C20.
* **C59 The running program keeps a Delaunay triangulation of every member** - invariant of core/par through new_generation and calculate_fitnesses, from C28, C45-C48.
* **C60 The program never panics and never hangs** - same invariant, totality of every loop.
* **C61 Fitness measures the covered share of the image** - pixel bound by lattice counting (a triangle with n non-corner lattice points has doubled area at least n+1), area bound by counting a generic lattice in the tiling, variance bound 255^2/4 per channel, error analysis of the final float expression.
* **C62 The polygons cover the image** - refuted by evaluation; the cells are small enough that sort.Slice is insertion sort.
* **C63 Voronoi reports the Voronoi cells** - circumcentres of the live triangles around a point are the vertices of its cell (both directions, from the Delaunay tiling); float division and float32 rounding are exact roundings of integers below 2^53; far points by distance.
* **C64 Polygonate and IVoronoi never panic** - refuted by evaluation.
* **C65 The caches of the polygon functions change no fitness** - the simulation of C17-C20 with polygons in place of triangles: strip the caches and show that every cached entry belongs to the polygon hashed; needs coordinates that fit in int16.
* **C66 The score of a polygon is the score of its pixels** - sums modulo 2^64 over the events of the block rasteriser, then bounds that make them exact; the pixel count is the sum of line lengths; refuted for reversed lines by a witness found with a Python search.
* **C67 A polygon fitness of 1 means a perfect picture** - refuted: no polygon, no cost.
* **C68 Runs over polygons evaluate the cells of the members' points** - the invariants of C58-C60 with incremental diagrams as objects.
* **C69 A run over polygons returns, except where two vertices of a cell cannot be compared** - the totality proof of C60 with a located failure; the constructors exactly, by running the workers' actions.
* **C70 The generic evaluators evaluate every member** - instances of the theorems about abstract evaluators (C31-C33).
* **C71 The fitness functions of the package work with every evaluator** - refuted by a run; an invariant says that every function is stuck at the fitness it returned first, so the list of fitnesses of every generation is a permutation of the first one.
* **C72 What Triangulate draws is what the fitness functions score** - the difference of the powers of a location with respect to two circumcircles is affine; it has opposite signs at the corners of the two triangles that cover the location, so it vanishes, the circles are the same and the triangles too if no other point is on the circle.
* **C73 The default algorithm runs from any image to a drawing** - utils/default.go is the program of C60 with its numbers; the channel model (C35) supplies the schedules, NormFloat64 (C56) the draws, C72 the drawing. The number of members stays abstract in the proofs.
* **C74 Pictures have the best colours, and the fitness is how close the picture is** - S_Colour.v defines means, squared errors and the score of a picture over the reals; L_Colour bounds the running mean, L_Colour2 compares the score of a triangle with the squared error, L_Colour3 the fitness, L_Colour4 shows that nothing depends on the order of corners and that drawn and scored triangles in general position have the same sums.
* **C75 The reports of a run** - M_Utils.v models the loops as relations over any Algorithm, the buffered writer and the JSON text; S_Utils.v has a reader of the JSON text and the list of the states visited. L_Utils.v proves that the writer loses nothing once flushed and that reading inverts writing; C73 gives the default algorithm.
* **C76 Traces and profiles** - the same writer without the flush; the sizes of the writes are arbitrary.
* **C77 CompareAlgorithms** - the loop with a constant condition.
* **C78 Sizes and rates of moves** - S_Move.v says in real numbers what a move is (the nearest number of [0,1] to old + delta); L_Move.v bounds the rounding of one coordinate for all finite amounts, with the overflow cases, and follows the temperature through the loop; math.Pow is an oracle.
* **C79 Spacing** - the smallest distance before and after an iteration; closestTo is known from C06, float distances are symmetric.
* **C80 Polygons on slices** - M_Cells.v runs Voronoi, IVoronoi and the loop of fitness/polygons.go on a heap of arrays with an oracle for the capacity append chooses; L_Cells.v shows that they refine the value models, keeping a set of frozen arrays that no scratch slice lies in. Voronoi's callback gets the scratch slice itself: refuted on three points.
* **C81 The fitness of polygons is how close the picture of the cells is** - S_PolyColour.v defines the error and the score of a picture of polygons; L_PolyColour.v bounds the loop of Calculate over the cells, P_PolyColour.v joins it with C66 (the score of a polygon is that of the pixels of its fan) and C74 (colours are means), and carries it to runs through C68.
* **C82 Cells that are not cut are covered** - S_Cover.v says what it means to be nearest, near a hull and in a cell. L_Hull.v proves a separation lemma for finitely many integer vectors (a combination vanishes, or all lie on one side of a line) and that a short step from a point in any direction ends in a Delaunay triangle at that point. L_Cover.v joins both: a location whose nearest site is q cannot be separated from the vertices of the cell of q, so it is a combination of them; rounding moves each vertex at most 0.5001. P_Cover.v states it for IVoronoi, Polygonate and evaluated members, with the converse.
* **C83 The corner test** - S_Corner.v defines convex polygons and which points lie in them; L_Corner.v shows what the scan over the sides computes, that the products are exact on whole coordinates, that no point is beyond all sides (the sum over the sides is twice the area from everywhere), and the margin of the float computation. P_Corner.v has the theorems and the link to corners_of.
* **C84 The order of the vertices** - S_Order.v says what counterclockwise order around a centre means, when directions differ clearly and what is assumed of sort.Slice (`sorts`: it sorts whenever the comparison is a strict total order on the elements); L_Order.v shows that the signs of rounded differences are exact, that the comparison `around` is the strict order on clear directions, how far the float mean is from the average, and that vertices in order and in convex position form a convex polygon. P_Order.v has the theorems.
* **C85 The queries** - P_Query.v: the scan of HasPoint on slots that exist and are in use, the completeness of the grid look-up (L_Lookup), no corner of the enclosing triangle lies in the image; GetClosestTo as in C51 but for all histories.
* **C86 Slices and scratch buffers** - M_Mem.v: the writing functions again, on heaps of arrays and slice headers; S_Mem.v: the value a triangulation shows; L_Mem.v: every header is valid and no two live in one array (kept by every operation), a cell loses at most one element per removal, so the slice iterated over in RemoveCircumcirclesThatContain never shows a stale element; refinement of Insert, Remove, Set, New and of programs.
* **C87 Shared memory and pointers** - M_MemRun.v: trianglesImageFunction and parallel with pointers into the memory of M_Mem; S_MemRun.v: which value evaluator a memory shows (`plain`), the same runs over either evaluator; L_MemRun.v: the invariant (pool is sound, functions point to distinct triangulations, every Base has an owner) and the step by step refinement through L_Fwd.v; L_MemRun2.v: lengths of populations for any evaluator. P_MemRun.v carries C59 and C60 over.
* **C88 Scheduling** - S_Sched.v: runs with the same inputs and other schedules; L_Sched.v: for any evaluator that keeps one object per function, every pending base is an object that no calculation changes, so each calculation has an outcome fixed by the state before all of them (`outcome`), and all schedules end in the same state; P_Sched.v carries this to the cached evaluators by L_Sim.v (down) and L_Fwd.v (up), for triangles and polygons, and refutes it for the whole Step of modifiedGenetic.
* **C89 Grain** - M_Fine.v: calculateFitnesses with the steps inside Calculate and Update, every step reading the shared state when it is executed; S_Fine.v: ended executions and termination; L_Fine.v: a simulation between a fine state and a coarse one in which the calculations and the Update under way have not happened yet (each takes effect with its last step; `mid` says what a calculation under way has done so far); L_Fine2.v: progress, safety and a measure; L_Fine3.v: the states in which calculateFitnesses is called satisfy the premises; P_Fine.v.
* **C90 Ziggurat** - S_Zig.v: the density, edges, levels and heights; L_Zig.v: verified bounds of exp by integers scaled by 2^120 and the check of the 128 rows; P_Zig.v: what the rows say about the reals, and the decisions of one iteration with the rounding of float32 and float64 accounted for.
* **C91 Polygon grain** - M_PFine.v: the same as M_Fine for the polygon functions, with the six fields of IVoronoi.Set; S_PFine.v: executions, starting states, what a function sees of its cache; L_PRace.v: which array every function reads (C36 for polygons); L_PFine.v, L_PFine2.v: the simulation, safety and termination; L_PFine3.v: the starting states of both algorithms satisfy its hypotheses, and any two schedules lead to the same members, fitnesses and diagrams.
* **C92 Interleaved runs** - M_FineRun.v: NewSimple, Step, NewModifiedGenetic and modifiedGenetic.Step with calculateFitnesses as in M_Fine, what the collecting loop notes joined to the end of Update; S_FineRun.v: the runs; L_FineRun.v: the noted mutations are those of the coarse execution, event by event; P_FineRun.v: by C89 every interleaved run is a run of C59/C60, so their theorems hold of it, and it can go on. Without a schedule in the statement: the schedule is what the proof finds.
* **C93 Interleaved polygon runs** - M_PFineRun.v, S_PFineRun.v, L_PFineRun.v, P_PFineRun.v: as C92 with M_PFine. The polygon functions may panic in sorting the vertices of a cell, so instead of returning, a panic of any step of any interleaving is traced by C91 to a panic with single events, and by C69 to a comparison of cell vertices of a child.
* **C94 Converse** - L_Back.v, P_Back.v, L_PBack.v, P_PBack.v: a schedule of single events is executed by letting the steps of each event follow each other (the worker sends its result only when the schedule says it is received); no step panics by C90 and C91, so the execution exists and ends in the state of the schedule. With C92 and C93 the reachable states are the same, and C88_genetic_refuted holds of interleaved steps.
* **C95 Vertex comparisons** - P_Cycle.v: the products of the determinant are rounded monotonically, so the comparison never inverts the exact order of the rounded differences, which is a strict order; transitivity fails by computed witnesses, where two directions differ by less than the rounding.
* **C96 Aliased groups** - M_Shared.v, S_Shared.v, L_Shared.v, P_Shared.v: init_at takes the arrays newPointGroup returns and which of them each member gets. If they are different, an injective renaming of addresses relates every state to that of M_Algo, operation by operation, for any evaluator; if not, a computed run on an 8x8 image contradicts C36.
* **C97 Too large a cutoff** - L_Stuck.v, P_Stuck.v: while nothing is mutated, every array holds one of the initial groups. Operation by operation this is kept: the filling loops do not run, a member below the cutoff is its own base and is not fitter than itself (also with NaN), so no mutation is noted and combineMutations copies nothing.
* **C98 Writing into Best** - S_Touch.v, L_Touch.v, P_Touch.v: two states that differ at most in the array of Best, which no member uses, go through every operation alike, and take_best makes them equal. The refutation for the groups is a computed Step on an 8x8 image.
* **C99 Sorting and ties** - S_Ties.v, L_Ties.v, P_Ties.v: the swaps permute the list of triples of fitness, member and function; a strictly falling list is the only sorted permutation of itself; so both sorts leave the same state, and the next Step starts from it. For this the four lists must keep their common length, which is carried through every operation for any evaluator whose Swap only swaps an order.

## Assumptions per theorem

N = `sig_not_dec`, F = `sig_forall_dec`, E = `functional_extensionality_dep`, C = `classic`,
"none" = closed under the global context.

* `P_AlgoEx.v`: C30_gaussian_ok CEFN, C30_random_ok CEFN, C30_simple_shape CEFN, C30_genetic_shape CEFN, C30_cutoff_zero_hangs none, C31_simple_best CEFN, C31_genetic_best CEFN, C31_genetic_negative_refuted CEFN, C32_simple_kept CEFN, C32_simple_monotone CEFN, C33_genetic_monotone CEFN, C34_genetic_combined CEFN, C34_schedule_independent CEFN, C37_simple_bases CEFN, C37_genetic_bases CEFN, C38_simple_live CEFN, C38_genetic_live CEFN
* `P_AlgoEx2.v`: C30_many_bases_panic CEFN
* `P_Back.v`: C94_simple_calc CEFN, C94_simple CEFN, C94_genetic_calc CEFN, C94_genetic CEFN, C94_interleaving_decides_refuted CEFN
* `P_Bound.v`: C61_triangle_pixels CEFN, C61_area CEFN, C61_share CEFN, C61_sign CEFN, C61_simple CEFN, C61_genetic CEFN
* `P_Cells.v`: C80_voronoi_callback CEFN, C80_voronoi_kept_refuted CEFN, C80_refines CEFN, C80_kept CEFN, C80_set_shares CEFN, C80_cache CEFN
* `P_Chan.v`: C35_no_panic none, C35_progress none, C35_terminates none, C35_all_received none, C35_blocks_forever none
* `P_Closest.v`: C51_nearest_corner CEFN, C51_nearest_point CEFN, C51_small_refuted CEFN
* `P_Colour.v`: C74_mean CEFN, C74_closest CEFN, C74_polygon CEFN, C74_score CEFN, C74_fitness CEFN, C74_simple CEFN, C74_genetic CEFN, C74_picture CEFN, C74_genetic_picture CEFN, C74_default CEFN
* `P_Corner.v`: C83_whole CEFN, C83_inside CEFN, C83_outside CEFN, C83_corners CEFN
* `P_Cover.v`: C82_cells CEFN, C82_only CEFN, C82_incremental CEFN, C82_polygonate CEFN, C82_evaluated CEFN
* `P_Cycle.v`: C95_no_cycles CEFN, C95_no_cycles_first CEFN, C95_transitive_refuted CEFN, C95_panic_order_refuted CEFN
* `P_Default.v`: C73_mutate CEFN, C73_mutate_some CEFN, C73_mutator CEFN, C73_schedule none, C73_new CEFN, C73_step CEFN, C73_runs CEFN, C73_best CEFN, C73_cache CEFN, C73_monotone CEFN, C73_picture CEFN, C73_small_refuted CEFN
* `P_Delaunay.v`: C45_no_panic CEFN, C45_delaunay CEFN, C46_nondegenerate CEFN, C46_cover_once CEFN, C46_side_once CEFN, C46_neighbour CEFN, C47_visible CEFN, C58_disjoint_pixels CEFN, C42_free_list CEFN, C42_insert_keeps CEFN, C43_cells CEFN, C43_no_panic CEFN, C41_num_points CEFN
* `P_Draw.v`: C72_triangulate CEFN, C72_indices CEFN, C72_rounding CEFN, C72_renders CEFN, C72_scored_is_drawn CEFN, C72_drawn_is_scored CEFN, C72_run CEFN, C72_genetic CEFN, C72_flat_refuted CEFN, C72_square_refuted CEFN
* `P_Fine.v`: C89_simple CEFN, C89_simple_total CEFN, C89_genetic CEFN, C89_genetic_total CEFN
* `P_FineRun.v`: C92_simple CEFN, C92_new_simple_total CEFN, C92_simple_total CEFN, C92_simple_best CEFN, C92_genetic CEFN, C92_new_genetic_total CEFN, C92_genetic_total CEFN
* `P_Fitness.v`: C24_cache_transparent CEFN, C24_cache_no_panic CEFN, C27_same_fitness CEFN, C29_in_range none, C29_modulo none, C29_equal_hash none, C29_empty_panics CEFN, C25_exact_pixels CEFN, C25_block_size CEFN, C25_history_tris CEFN, C26_exact_squares CEFN, C26_score_bounds CEFN, C26_fitness_finite CEFN, C26_fitness_above_one_refuted CEFN, C26_overflow_refuted CEFN, C29_one_entry_refuted CEFN, C24_calculate_twice_refuted CEFN
* `P_Generic.v`: C70_simple CEFN, C70_genetic CEFN, C70_best CEFN, C71_triangles_frozen CEFN, C71_polygons_frozen CEFN, C71_triangles_no_progress CEFN, C71_polygons_no_progress CEFN, C71_many_refuted CEFN
* `P_Geom.v`: C07_fan none, C08_round_trip CEFN, C09_fast_round CEFN, C09_exception CEFN, C55_area CEFN, C55_invariance none
* `P_Heap.v`: C49_refines none, C49_set none, C49_set_succeeds none, C49_independent none, C49_self_refuted none, C49_triangulation CEFN, C49_goes_on CEFN, C41_set CEFN, C41_set_refuted CEFN
* `P_Image.v`: C10_average CEFN, C11_to_data CEFN, C12_C13_pixels CEFN, C13_exact_refuted CEFN, C14_blocks CEFN, C14_wraps_at_17 CEFN
* `P_Lookup.v`: C44_complete CEFN, C44_large_refuted CEFN, C45_large_refuted CEFN, C46_large_refuted CEFN
* `P_Maps.v`: C39_point_map none, C39_counter_wraps none, C40_polygon_map none
* `P_Mem.v`: C86_refines CEFN, C86_growth CEFN, C86_scratch CEFN, C86_apart CEFN, C86_history CEFN, C86_self_refuted CEFN
* `P_MemRun.v`: C87_simple CEFN, C87_genetic CEFN, C87_new_returns CEFN, C87_step_returns CEFN, C87_delaunay CEFN, C87_best CEFN, C87_new_genetic CEFN, C87_genetic_returns CEFN, C87_genetic_delaunay CEFN
* `P_Move.v`: C78_gaussian CEFN, C78_random CEFN, C78_rate CEFN, C78_default CEFN, C78_spaced CEFN, C78_cooling CEFN, C78_pow CEFN, C79_iteration CEFN, C79_generate CEFN, C79_collision_refuted CEFN
* `P_Norm.v`: C01_constrain CEFN, C03_gaussian_log CEFN, C03_random_log CEFN, C04_gaussian_unit CEFN, C04_random_unit CEFN, C05_random_generator EF, C05_spaced_generator CEFN, C06_spaced_move CEFN, C06_nearest_exists CEFN
* `P_Order.v`: C84_incremental CEFN, C84_voronoi CEFN, C84_polygonate CEFN, C84_convex EF, C84_sort none
* `P_PBack.v`: C94_polygons CEFN, C94_polygons_genetic CEFN
* `P_PFine.v`: C91_simple CEFN, C91_simple_total CEFN, C91_simple_arrays CEFN, C91_genetic CEFN, C91_genetic_total CEFN, C91_genetic_arrays CEFN
* `P_PFineRun.v`: C93_simple CEFN, C93_cells CEFN, C93_new CEFN, C93_step CEFN, C93_best CEFN, C93_genetic CEFN, C93_genetic_step CEFN
* `P_PolyColour.v`: C81_score CEFN, C81_fitness CEFN, C81_simple CEFN, C81_genetic CEFN
* `P_PolyProg.v`: C69_new_simple CEFN, C69_new_genetic CEFN, C69_step_panic CEFN, C69_genetic_step_panic CEFN, C69_cells CEFN, C69_best CEFN, C69_new_panic CEFN, C69_panic_refuted CEFN
* `P_PolyRun.v`: C65_simple_run CEFN, C65_genetic_run CEFN, C68_simple CEFN, C68_genetic CEFN, C68_simple_best CEFN, C68_genetic_best CEFN
* `P_PolySum.v`: C66_score CEFN, C66_exact_pixels CEFN, C66_block_size CEFN, C66_fitness_finite CEFN, C66_score_refuted CEFN
* `P_Polygons.v`: C65_cache_transparent CEFN, C65_cache_no_panic CEFN, C67_blank_refuted CEFN
* `P_Query.v`: C85_has_point CEFN, C85_closest CEFN, C85_agree CEFN
* `P_Race.v`: C36_simple CEFN, C36_genetic CEFN, C36_genetic_zero_refuted CEFN
* `P_Random.v`: C56_no_panic CEFN, C56_fast CEFN, C56_bounded CEFN, C56_tail CEFN, C56_finite CEFN, C56_num CEFN, C56_finite_refuted CEFN
* `P_Raster.v`: C15_rows CEFN, C16_bounds CEFN, C17_no_duplicates CEFN, C18_blocks_equal_lines CEFN, C18_block_size_zero_loops CEFN, C19_vertex_order CEFN, C20_watertight CEFN, C20_at_most_once CEFN, C20_shared_edge CEFN, C21_polygons CEFN, C22_triangles_on_image CEFN, C23_polygons_on_image CEFN
* `P_Remove.v`: C48_no_panic CEFN, C48_delaunay CEFN, C48_nondegenerate CEFN, C48_cover_once CEFN, C48_side_once CEFN, C48_neighbour CEFN, C48_visible CEFN, C48_gone CEFN, C48_copies CEFN, C48_disjoint_pixels CEFN, C48_count CEFN
* `P_Run.v`: C28_simple CEFN, C28_genetic CEFN, C32_simple_parallel CEFN, C33_genetic_parallel CEFN, C28_no_base_refuted CEFN, C28_genetic_zero_refuted CEFN
* `P_Run2.v`: C59_simple CEFN, C59_genetic CEFN, C60_new_simple CEFN, C60_simple_step CEFN, C60_simple_sorts CEFN, C60_simple_best CEFN, C60_new_genetic CEFN, C60_genetic_step CEFN, C60_genetic_zero_refuted CEFN
* `P_Sched.v`: C88_simple CEFN, C88_genetic_calc CEFN, C88_genetic_refuted CEFN, C88_polygons CEFN, C88_polygons_new CEFN
* `P_Shared.v`: C96_simple CEFN, C96_genetic CEFN, C96_shared_refuted CEFN
* `P_Slice.v`: C02_set none, C02_copy none
* `P_Stuck.v`: C97_simple CEFN, C97_genetic CEFN, C97_simple_sharp CEFN, C97_genetic_sharp CEFN
* `P_Super.v`: C50_encloses CEFN, C50_wraps_refuted CEFN, C50_corner_8192_refuted CEFN, C57_not_freed CEFN, C57_one_pixel CEFN
* `P_Ties.v`: C99_simple CEFN, C99_genetic CEFN, C99_polygons CEFN, C99_polygons_genetic CEFN, C99_best_fitness CEFN, C99_ties_refuted CEFN
* `P_Touch.v`: C98_simple CEFN, C98_genetic CEFN, C98_group_refuted CEFN
* `P_Utils.v`: C75_readable none, C75_lossless none, C75_output none, C75_printed none, C75_stats_readable none, C75_printed_readable none, C75_no_stats_file none, C75_no_stats_start none, C75_fatal_keeps none, C75_default_ends CEFN, C75_default_goes_on CEFN, C75_default_lines CEFN, C75_default_file CEFN, C76_trace none, C76_trace_whole none, C76_trace_refuted none, C76_short_trace_refuted none, C76_profile CEFN, C76_profile_returns CEFN, C77_compare_refuted none
* `P_Voronoi.v`: C52_voronoi CEFN, C52_incremental CEFN, C53_polygons CEFN, C54_cells CEFN, C54_panic CEFN, C63_cells CEFN, C63_far_points none, C63_panic CEFN, C62_covers_refuted CEFN, C62_one_point_refuted CEFN, C64_polygonate_refuted CEFN, C64_incremental_refuted CEFN
* `P_Zig.v`: C90_levels CEFN, C90_areas CEFN, C90_base CEFN, C90_under CEFN, C90_tail CEFN
