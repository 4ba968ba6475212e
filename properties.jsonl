{"id": "C01", "title": "Constrain clamps a normalised point", "statement": "After Constrain, each coordinate of a NormPoint lies in [0,1]; coordinates that were already in [0,1] are bit-for-bit unchanged; values above 1 become 1 and values below 0 become 0. (Only NaN escapes.)", "quantifier": "every pair of float64 coordinates, including infinities, signed zeros and subnormals (NaN is the stated exception)", "why_tests_cant": "2^128 input pairs; the interesting ones are boundary, infinite and NaN values", "anchors": ["normgeom/normpoint.go:NormPoint.Constrain"]}
{"id": "C02", "title": "Set and Copy copy point groups without aliasing", "statement": "a.Set(b) panics exactly when the lengths differ; otherwise a afterwards holds b's points and b is unchanged. Copy returns an equal group, and later writes to either group never show through the other.", "quantifier": "every pair of groups in every memory layout in which they do not already overlap, and every later write", "why_tests_cant": "aliasing shows only under particular later writes; tests compare contents once", "anchors": ["normgeom/normpoint.go:NormPointGroup.Set", "normgeom/normpoint.go:NormPointGroup.Copy"]}
{"id": "C03", "title": "Mutation log is exact", "statement": "Mutate reports each changed point exactly once, in increasing index order, with Old the value before and New the value after; replaying the reported mutations on the old group yields the new group, and points not reported are unchanged.", "quantifier": "every point group, every rate and amount, and every outcome of the random source, for both the gaussian and the random method", "why_tests_cant": "depends on all random outcomes; tests only use rates 0 and 1", "anchors": ["mutation/gaussian.go:gaussianMethod.Mutate", "mutation/random.go:randomMethod.Mutate", "mutation/data.go:Mutation"]}
{"id": "C04", "title": "Mutated points stay inside the unit square", "statement": "After Mutate every coordinate that was in [0,1] is in [0,1], as long as the random perturbation is not NaN, and the number of points does not change.", "quantifier": "every group in the unit square, every rate/amount, every non-NaN random outcome", "why_tests_cant": "quantifies over all random draws and all float sums, including overflow to infinity", "anchors": ["mutation/gaussian.go", "mutation/random.go", "normgeom/normpoint.go"]}
{"id": "C05", "title": "Generators return n points in the unit square", "statement": "RandomGenerator.Generate(n) and the spaced generator's Generate(n) return exactly n points, all with coordinates in [0,1].", "quantifier": "every n>=1, every number of iterations, every outcome of the random source in [0,1)", "why_tests_cant": "tests sample one random run and look only at the length", "anchors": ["generator/random.go:RandomGenerator.Generate", "generator/spaced.go:spacedGenerator.Generate"]}
{"id": "C06", "title": "Spaced generator only moves a point to a roomier place", "statement": "Every accepted move of the spaced generator leaves the moved point at strictly larger distance from every other (different) point than its previous distance to its nearest (different) neighbour, and leaves every other point where it was; a rejected move changes nothing.", "quantifier": "every configuration of points and every random perturbation", "why_tests_cant": "needs all configurations; a run of the generator only ever sees a few", "anchors": ["generator/spaced.go:spacedGenerator.Generate", "generator/spaced.go:closestTo", "normgeom/normpoint.go:Dist"]}
{"id": "C07", "title": "Fan triangulation preserves the polygon", "statement": "Polygon.Triangulate calls back exactly max(0,n-2) triangles, each made of vertex 0 and two consecutive vertices, and their signed areas add up to the polygon's shoelace area.", "quantifier": "every polygon with any number of integer vertices", "why_tests_cant": "unbounded vertex count and arbitrary (also non-convex, self-intersecting) shapes", "anchors": ["geom/polygon.go:Polygon.Triangulate"]}
{"id": "C08", "title": "Normalising a pixel point and rounding it back is lossless", "statement": "For an integer point inside a w x h image, converting with ToNorm(w,h) and back with the fitness function's or the renderer's rounding gives the same point.", "quantifier": "every image size 1..32767 and every integer point in it", "why_tests_cant": "about 10^9 (coordinate,size) pairs of float divisions and multiplications", "anchors": ["geom/point.go:Point.ToNorm", "fitness/util.go:createPoint", "triangulation/triangulator.go:Triangulate"]}
{"id": "C09", "title": "Fitness rounding and render rounding agree", "statement": "The fitness function's fast rounding of a coordinate gives the same pixel as math.Round, which rendering uses, for every non-negative coordinate except 0.49999999999999994, where they differ.", "quantifier": "every float64 in [0, 2^51]", "why_tests_cant": "there is exactly one exceptional double among ~4.8*10^18", "anchors": ["fitness/util.go:fastRound", "triangulation/triangulator.go:Triangulate", "polygonation/polygonate.go:Polygonate"]}
{"id": "C10", "title": "Average colour is well formed", "statement": "After adding n>=1 colours with channels in [0,1], Count is n and Average has all channels in [0,1] (never NaN).", "quantifier": "every sequence of fewer than 2^53 colours", "why_tests_cant": "rounding of long sums; unbounded sequence length", "anchors": ["color/color.go:AverageRGB.Add", "color/color.go:AverageRGB.Average", "color/color.go:AverageRGB.Count"]}
{"id": "C11", "title": "ToData reproduces the image", "statement": "ToData(img) has the size of img's Max corner, and RGBAt(x,y) is the pixel's 8-bit channels divided by 255, each in [0,1], for every pixel.", "quantifier": "every image and every pixel position", "why_tests_cant": "all image sizes and contents", "anchors": ["image/rgbdata.go:ToData", "image/rgbdata.go:convertColor", "image/rgbdata.go:RGBData.RGBAt", "image/rgbdata.go:NewData"]}
{"id": "C12", "title": "8-bit channels survive the trip through floats", "statement": "The 8-bit channel values stored by the fitness function for an image built by ToData equal the image's own 8-bit channels.", "quantifier": "every channel value of every pixel", "why_tests_cant": "relies on float rounding of k/255*255 for each k", "anchors": ["image/rgbdata.go:convertColor", "fitness/pixels.go:fromImage"]}
{"id": "C13", "title": "Stored square sums are exact or one too small", "statement": "The square sum stored for a pixel (r,g,b) is r*r+g*g+b*b or exactly one less; it is not always exact.", "quantifier": "all 2^24 colours", "why_tests_cant": "only ~4% of colours are affected, no test looks at sq", "anchors": ["fitness/pixels.go:fromImage"]}
{"id": "C14", "title": "Block sums equal sums of pixels", "statement": "For block size n<=16 each stored n*n block value is the sum of the stored pixel values in that block, channel by channel, and the table has (h-n+1) rows of (w-n+1) entries; for n=17 the 16-bit sums can wrap.", "quantifier": "every image, every block position, every block size", "why_tests_cant": "wrap-around depends on image content and block size", "anchors": ["fitness/pixels.go:fromImageN", "fitness/pixels.go:newPixelDataN"]}
{"id": "C15", "title": "Line rasteriser visits every row once", "statement": "DDATriangleLines calls line exactly once for each row from the smallest vertex y (inclusive) to the largest (exclusive), in increasing order, and for no other row.", "quantifier": "every triangle, in any vertex order, degenerate or not", "why_tests_cant": "all vertex orders, flat and degenerate shapes, unbounded sizes", "anchors": ["rasterize/lines.go:DDATriangleLines", "rasterize/lines.go:normalTriangleLines", "rasterize/lines.go:fillTriangleLines"]}
{"id": "C16", "title": "Rasterised rows stay inside the triangle's bounding box", "statement": "Every row [x0,x1) emitted for a non-degenerate triangle has xmin <= x0 <= x1 <= xmax over the triangle's vertices.", "quantifier": "every triangle with non-negative int16 coordinates and non-zero area (rows may not be inverted even after float rounding)", "why_tests_cant": "requires float error analysis for ~10^28 triangles", "anchors": ["rasterize/lines.go", "rasterize/blocks.go"]}
{"id": "C17", "title": "No pixel is emitted twice", "statement": "DDATriangle reports each pixel at most once.", "quantifier": "every triangle", "why_tests_cant": "all triangles", "anchors": ["rasterize/pixels.go:DDATriangle"]}
{"id": "C18", "title": "Block rasteriser covers exactly the same pixels as the line rasteriser", "statement": "For any block size n>=1 the lines and n*n blocks reported by DDATriangleBlocks cover, counting multiplicity, exactly the pixels reported by DDATriangle; it terminates.", "quantifier": "every triangle (int16 coordinates) and every block size >= 1, including the float rounding of slopes", "why_tests_cant": "the one unit test counts pixels of one triangle", "anchors": ["rasterize/blocks.go:DDATriangleBlocks", "rasterize/blocks.go:normalTriangleBlocks", "rasterize/lines.go:DDATriangleLines"]}
{"id": "C19", "title": "Rasterisation does not depend on vertex order", "statement": "Permuting the three vertices of a triangle does not change the rows reported by DDATriangleLines.", "quantifier": "every triangle (degenerate ones included), all six vertex orders", "why_tests_cant": "all triangles; float slopes are computed from different operands in different orders", "anchors": ["rasterize/lines.go:DDATriangleLines"]}
{"id": "C20", "title": "Rasterisation is watertight", "statement": "For any family of equally oriented, non-degenerate triangles, how often a pixel is covered depends only on the family's boundary edges: edges shared by two triangles leave neither gaps nor overlaps. In particular two triangles on opposite sides of a shared edge share no pixel.", "quantifier": "every finite family of int16 triangles, every pixel", "why_tests_cant": "float-rounded edges must agree bit for bit between neighbours for all triangle pairs", "anchors": ["rasterize/lines.go", "rasterize/pixels.go"]}
{"id": "C21", "title": "Polygon rasterisers agree with each other and with the fan", "statement": "DDAPolygonBlocks covers exactly the pixels DDAPolygon reports (with multiplicity), and DDAPolygon reports the pixels of the fan triangles in order.", "quantifier": "every polygon and block size >= 1", "why_tests_cant": "all polygons", "anchors": ["rasterize/polygon.go:DDAPolygon", "rasterize/polygon.go:DDAPolygonBlocks"]}
{"id": "C22", "title": "Rendering triangles never leaves the image and yields valid colours", "statement": "TrianglesOnImage returns one entry per triangle, in order, whose normalised triangle is the input's; for triangles with vertices in [0,w]x[0,h] it never reads a pixel outside the image, and every colour channel is in [0,1].", "quantifier": "every image with channels in [0,1] and every list of triangles inside it", "why_tests_cant": "out-of-range reads need particular float roundings", "anchors": ["render/triangles.go:TrianglesOnImage", "render/util.go:min"]}
{"id": "C23", "title": "Rendering polygons never leaves the image and yields valid colours", "statement": "PolygonsOnImage returns one entry per polygon, in order; for polygons with at least one vertex, vertices in [0,w]x[0,h], it never reads outside the image and every colour channel is in [0,1].", "quantifier": "every image with channels in [0,1] and every list of polygons inside it", "why_tests_cant": "as for triangles; fans can contain degenerate triangles", "anchors": ["render/polygons.go:PolygonsOnImage"]}
{"id": "C24", "title": "The variance cache is transparent", "statement": "The fitness returned by Calculate does not depend on what is in the cache, as long as each cached entry was produced by this kind of fitness function for the same image: a hit returns bit-for-bit what recomputation would.", "quantifier": "every sequence of calculations, every cache content reachable from them, including the aliasing of the cache with the next cache", "why_tests_cant": "depends on the whole call history and on hash collisions", "anchors": ["fitness/cache.go:TriangleCacheData", "fitness/triangles.go:trianglesImageFunction.Calculate", "algorithm/evaluator/parallel.go:parallel.Update"]}
{"id": "C25", "title": "Triangle score is computed from exactly the triangle's pixels", "statement": "For a triangle inside the image the (block-wise) sums used by Calculate are the sums over exactly the pixels DDATriangle reports, and n is their number, so the block size does not influence the fitness.", "quantifier": "every image, triangle inside it, and block size 1..16 not larger than the image", "why_tests_cant": "all images/triangles/block sizes", "anchors": ["fitness/triangles.go:trianglesImageFunction.Calculate", "fitness/pixels.go"]}
{"id": "C26", "title": "Per-triangle variance bound", "statement": "If the stored squares were exact, the per-triangle difference would never be negative; with the squares as stored it is, for a triangle of n pixels, between -(n+1) and 195075 n, and it really can be negative, so a fitness above 1 is possible. For triangles of several million pixels the int64 sums overflow and the difference is meaningless, but the fitness is always a finite number.", "quantifier": "every triangle and image", "why_tests_cant": "the sign depends on float truncation of particular colours", "anchors": ["fitness/triangles.go", "fitness/pixels.go:fromImage"]}
{"id": "C27", "title": "Re-evaluating an unchanged member gives the same fitness", "statement": "Calling Calculate again on the same fitness function without SetBase returns the identical fitness, whatever happened to the cache in between.", "quantifier": "every history of cache updates between the two calls", "why_tests_cant": "histories", "anchors": ["fitness/triangles.go:trianglesImageFunction.Calculate", "algorithm/evaluator/parallel.go"]}
{"id": "C28", "title": "Incremental evaluation triangulates the member's own points", "statement": "When SetBase and the reported mutations are used as the algorithms do, the triangulation a fitness function evaluates contains exactly the member's rounded points with multiplicity; without SetBase a second call with other points silently evaluates the old ones.", "quantifier": "every number of generations, every set of mutations", "why_tests_cant": "history property over generations", "anchors": ["fitness/triangles.go", "fitness/polygons.go", "algorithm/simple.go", "algorithm/modifiedgenetic.go"]}
{"id": "C29", "title": "Cache look-ups stay in range", "statement": "The cache index computed from a triangle hash is always within a non-empty cache, for power-of-two caches it is the hash modulo the size, and equal triangles have equal hashes; with an empty cache the look-up panics.", "quantifier": "every triangle with int16 coordinates, every cache length", "why_tests_cant": "index arithmetic on 64-bit wrap-around", "anchors": ["fitness/cache.go:TriangleCacheData.Hash", "fitness/cache.go:TriangleCacheData.Equals", "fitness/triangles.go"]}
{"id": "C30", "title": "Population keeps its shape", "statement": "After any number of Steps the population has its original size, every member its original number of points, and all coordinates remain in [0,1].", "quantifier": "every size, cutoff 1..size, number of generations, mutator and schedule", "why_tests_cant": "unbounded histories", "anchors": ["algorithm/simple.go:simple.Step", "algorithm/simple.go:simple.newGeneration", "algorithm/modifiedgenetic.go"]}
{"id": "C31", "title": "Best and BestFitness describe the fittest member", "statement": "After construction and after every Step, Best() is the point group of a member, Stats().BestFitness is that member's fitness, and no member has a higher one.", "quantifier": "every history and worker schedule, any evaluator that never returns NaN", "why_tests_cant": "histories and schedules", "anchors": ["algorithm/simple.go:simple.updateFitnesses", "algorithm/modifiedgenetic.go:modifiedGenetic.updateFitnesses"]}
{"id": "C32", "title": "Simple algorithm never loses its best result", "statement": "Stats().BestFitness never decreases from one Step to the next (evaluators that re-evaluate unchanged members consistently, cutoff>=1).", "quantifier": "every history, mutator, schedule, sort behaviour", "why_tests_cant": "histories and schedules", "anchors": ["algorithm/simple.go"]}
{"id": "C33", "title": "Modified genetic algorithm never loses its best result", "statement": "Stats().BestFitness of the modified genetic algorithm never decreases, given positive fitnesses and 1<=cutoff, 2*cutoff<=size.", "quantifier": "every history, mutator, schedule, sort behaviour", "why_tests_cant": "histories and schedules", "anchors": ["algorithm/modifiedgenetic.go"]}
{"id": "C34", "title": "Combined member gets the fittest mutation for each point", "statement": "The member created from a base's beneficial mutations equals the base except that each point mutated by some improving member takes the new position from the fittest such member; without fitness ties this does not depend on the order in which workers finish.", "quantifier": "every set of members/mutations/fitnesses and every completion order", "why_tests_cant": "all n! completion orders", "anchors": ["algorithm/modifiedgenetic.go:modifiedGenetic.setBeneficial", "algorithm/modifiedgenetic.go:modifiedGenetic.combineMutations", "algorithm/modifiedgenetic.go:modifiedGenetic.calculateFitnesses"]}
{"id": "C35", "title": "Every generation's fitness gathering terminates", "statement": "For every interleaving of the workers with the collecting loop, the loop receives exactly one result per submitted member, closes the channel once after all sends, never blocks forever; with size=cutoff the modified algorithm blocks forever.", "quantifier": "every interleaving", "why_tests_cant": "schedules", "anchors": ["algorithm/simple.go:simple.calculateFitnesses", "algorithm/modifiedgenetic.go:modifiedGenetic.calculateFitnesses"]}
{"id": "C36", "title": "Shared caches are never written while a worker reads them", "statement": "While any fitness calculation that reads a shared cache array is in flight, the evaluator writes only to the other array.", "quantifier": "every interleaving of every generation of the simple algorithm with the parallel evaluator", "why_tests_cant": "schedules; a race detector sees only the interleavings that occur", "anchors": ["algorithm/evaluator/parallel.go", "algorithm/simple.go"]}
{"id": "C37", "title": "Bases survive unchanged", "statement": "The cutoff fittest members of a generation are present, unmodified, in the population after the next Step.", "quantifier": "every history", "why_tests_cant": "histories", "anchors": ["algorithm/simple.go:simple.newGeneration", "algorithm/modifiedgenetic.go:modifiedGenetic.newGeneration"]}
{"id": "C38", "title": "Best() is a live view", "statement": "The group returned by Best() is the algorithm's own buffer: it always equals the current best, also after later Steps, so a caller's earlier result changes.", "quantifier": "every history", "why_tests_cant": "aliasing across calls", "anchors": ["algorithm/simple.go:simple.Best", "algorithm/modifiedgenetic.go:modifiedGenetic.Best"]}
{"id": "C39", "title": "Point map is a multiset", "statement": "AddPoint, RemovePoint, CopiesOf, NumPoints and IterPoints of the point map behave like a multiset of points: the return values are the multiplicities, removing an absent point panics, iteration visits each distinct point once.", "quantifier": "every sequence of operations on points with non-negative coordinates and fewer than 65536 copies each, any table size", "why_tests_cant": "operation histories with hash collisions", "anchors": ["triangulation/incrdelaunay/pointmap.go"]}
{"id": "C40", "title": "Polygon map is a map keyed by points", "statement": "AddPolygon/RemovePolygon/IterPolygons behave like a multiset of (point, polygon) entries; removal removes one entry of that point and panics when there is none.", "quantifier": "every sequence of operations", "why_tests_cant": "histories with hash collisions", "anchors": ["triangulation/incrdelaunay/polygonmap.go"]}
{"id": "C41", "title": "NumPoints counts insertions minus removals", "statement": "Delaunay.NumPoints is the number of Inserts minus Removes since NewDelaunay and equals the size of the point multiset; Set does not transfer it.", "quantifier": "every operation history", "why_tests_cant": "histories", "anchors": ["triangulation/incrdelaunay/delaunay.go:Delaunay.NumPoints", "triangulation/incrdelaunay/delaunay.go:Delaunay.Set"]}
{"id": "C42", "title": "Triangle slots and free list stay consistent", "statement": "At all times each triangle slot is either live or on the free list exactly once, so no live triangle is ever overwritten and none is iterated twice.", "quantifier": "every history of Inserts and Removes with fewer than 65536 slots", "why_tests_cant": "histories", "anchors": ["triangulation/incrdelaunay/delaunay.go:Delaunay.addTriangle", "triangulation/incrdelaunay/delaunay.go:Delaunay.markFreeTriangle"]}
{"id": "C43", "title": "Grid and triangle list agree", "statement": "Every grid cell lists a live triangle exactly when the cell lies in the box of its circumcircle, once, and never lists a freed slot (the \"UH OH\" panics are unreachable).", "quantifier": "every history of Inserts and Removes", "why_tests_cant": "histories", "anchors": ["triangulation/incrdelaunay/grid.go:CircumcircleGrid.AddTriangle", "triangulation/incrdelaunay/grid.go:CircumcircleGrid.RemoveTriangle", "triangulation/incrdelaunay/grid.go:CircumcircleGrid.RemoveCircumcirclesThatContain"]}
{"id": "C44", "title": "Grid look-ups find every triangle whose circumcircle contains the point", "statement": "For images of at most 1920x1920 pixels the grid cell of a point lists every triangle in use whose exact closed circumcircle contains the point, although circles are stored as float32 and cell bounds are rounded. (For images of about 7700 pixels and more this fails: a radius above 32768 is not changed by adding 0.001 in float32.)", "quantifier": "every image size from 2x1 to 1920x1920, every sequence of insertions, every triangle in use and every point of the image", "why_tests_cant": "float32 rounding of circumcentres for all triangles", "anchors": ["triangulation/incrdelaunay/grid.go", "triangulation/incrdelaunay/geom.go:calcCircumcircle", "triangulation/incrdelaunay/util.go:inCircle"]}
{"id": "C45", "title": "Triangulation is Delaunay", "statement": "After any sequence of Inserts no inserted point lies strictly inside the circumcircle of a triangle of the triangulation. (It fails for larger images, e.g. 8190x8190, because of C44.)", "quantifier": "every image size from 2x1 to 1920x1920 and every sequence of insertions of image points (duplicates, collinear and cocircular points included)", "why_tests_cant": "histories and all geometric configurations", "anchors": ["triangulation/incrdelaunay/delaunay.go:Delaunay.Insert", "triangulation/incrdelaunay/util.go"]}
{"id": "C46", "title": "Triangles tile the plane region", "statement": "After any sequence of Inserts all triangles have non-zero area, every edge has exactly one triangle on each side (except the three outer edges), and every location inside the enclosing triangle is covered exactly once. (It fails for larger images, e.g. 8190x8190, because of C44.)", "quantifier": "every image size from 2x1 to 1920x1920 and every sequence of insertions of image points (duplicates, collinear and cocircular points included)", "why_tests_cant": "histories and all geometric configurations", "anchors": ["triangulation/incrdelaunay/delaunay.go:Delaunay.Insert", "triangulation/incrdelaunay/delaunay.go:Delaunay.addEdge"]}
{"id": "C47", "title": "Visible triangles connect inserted points", "statement": "IterTriangles only reports triangles whose three corners are currently inserted points, and every inserted point is a corner of some triangle of the triangulation.", "quantifier": "every image size from 2x1 to 1920x1920 and every sequence of insertions of image points", "why_tests_cant": "histories", "anchors": ["triangulation/incrdelaunay/delaunay.go:Delaunay.IterTriangles"]}
{"id": "C48", "title": "Remove undoes Insert", "statement": "Removing one of several copies of a point leaves all triangles as they are; removing the last copy leaves no triangle with that corner and the triangulation again tiles and is Delaunay for the remaining points.", "quantifier": "every image size from 2x1 to 1920x1920 and every history of insertions and removals of image points (duplicates, collinear and cocircular points included), for the 64-bit float ear scores of the code", "why_tests_cant": "histories and all geometric configurations", "anchors": ["triangulation/incrdelaunay/delaunay.go:Delaunay.Remove", "triangulation/incrdelaunay/util.go:calculateScore"]}
{"id": "C49", "title": "Delaunay.Set makes an independent copy", "statement": "After d.Set(o), d reports the same triangles and points as o, o is unchanged, and later operations on either do not affect the other.", "quantifier": "every pair of triangulations, slice lengths and capacities", "why_tests_cant": "aliasing under later writes", "anchors": ["triangulation/incrdelaunay/delaunay.go:Delaunay.Set", "triangulation/incrdelaunay/grid.go:CircumcircleGrid.Set", "triangulation/incrdelaunay/pointmap.go:pointMap.Set"]}
{"id": "C50", "title": "The enclosing triangle encloses the image", "statement": "NewSuperTriangle(w,h) strictly contains every point of [0,w]x[0,h] for all sizes up to 13106 other than 1x1; beyond that 16-bit overflow breaks it, and already at 8192x8192 inserting the far corner silently loses it.", "quantifier": "all image sizes", "why_tests_cant": "all sizes, overflow at the far end", "anchors": ["triangulation/incrdelaunay/geom.go:NewSuperTriangle"]}
{"id": "C51", "title": "GetClosestTo returns a nearest corner", "statement": "GetClosestTo(p) returns a triangle corner at minimal squared distance from p among all corners of the triangulation; when every inserted point is a corner and p is in the image the result is a nearest inserted point.", "quantifier": "every triangulation state and query point", "why_tests_cant": "all states", "anchors": ["triangulation/incrdelaunay/delaunay.go:Delaunay.GetClosestTo", "triangulation/incrdelaunay/geom.go:Point.DistSq"]}
{"id": "C52", "title": "Voronoi cells stay inside the image", "statement": "Every vertex of every polygon reported by Voronoi or IterPolygons is a finite number in [-eps,w+eps]x[-eps,h+eps] with eps=0.000100001, and no reported polygon is empty.", "quantifier": "every image 2x1 to 1920x1920, every history of insertions and removals of image points with at most 32765 points, every behaviour of sort.Slice", "why_tests_cant": "all states, float clipping", "anchors": ["triangulation/incrdelaunay/voronoi.go:Voronoi", "triangulation/incrdelaunay/voronoi.go:segmentsIntersect", "triangulation/incrdelaunay/voronoi.go:outside"]}
{"id": "C53", "title": "Polygonate returns clean pixel polygons", "statement": "Every polygon returned by Polygonate has all vertices in [0,w]x[0,h], at least one vertex, and no two consecutive equal vertices, and there are at most as many polygons as different pixels.", "quantifier": "every group of at most 32765 points in the unit square, every image 2x1 to 1920x1920", "why_tests_cant": "all inputs", "anchors": ["polygonation/polygonate.go:Polygonate"]}
{"id": "C54", "title": "Incremental Voronoi keeps one cell per point", "statement": "After any history of Insert/Remove on an IVoronoi, there is exactly one stored cell for each distinct inserted point and none for others, each cell is up to date (its vertices are those of the Voronoi cell of the present points, or on the border), and the triangulation is the one the same history makes of a Delaunay. If an operation panics, then in the comparison of two Voronoi vertices of one cell; the panics 'oh no' and 'uh oh' are unreachable.", "quantifier": "every history of insertions and removals of image points with at most 32765 points, every image 2x1 to 1920x1920, every behaviour of sort.Slice", "why_tests_cant": "histories", "anchors": ["triangulation/incrdelaunay/voronoi.go:IVoronoi.Insert", "triangulation/incrdelaunay/voronoi.go:IVoronoi.Remove"]}
{"id": "C55", "title": "Area is the absolute shoelace area", "statement": "Area(polygon) for integer coordinates is |shoelace|/2 rounded half away from zero, hence unaffected by reversing, rotating or translating the vertex list.", "quantifier": "every polygon with coordinates at most 2^52 and absolute partial sums at most 2^51", "why_tests_cant": "unbounded vertex lists", "anchors": ["triangulation/triangulator.go:Area"]}
{"id": "C56", "title": "Normal random numbers index the tables safely and are bounded on the fast path", "statement": "For every 32-bit random word the table index of NormFloat64 is in range, and a value returned on the fast path has absolute value at most 3.4427.", "quantifier": "all 2^32 random words", "why_tests_cant": "2^32 words, table constants", "anchors": ["random/random.go:NormFloat64", "random/random.go:absInt32"]}
{"id": "C57", "title": "Small images", "statement": "For every image size up to 13106 other than 1x1 the enclosing triangle never looks like a freed slot; for 1x1 every Insert panics.", "quantifier": "all image sizes", "why_tests_cant": "single exceptional size", "anchors": ["triangulation/incrdelaunay/geom.go:NewSuperTriangle", "triangulation/incrdelaunay/grid.go:CircumcircleGrid.RemoveCircumcirclesThatContain"]}
{"id": "C58", "title": "Triangles of a triangulation never share a pixel", "statement": "The pixel sets of the triangles reported by IterTriangles are pairwise disjoint, so the sums in the fitness function count each pixel at most once.", "quantifier": "every image size from 2x1 to 1920x1920 and every sequence of insertions of image points", "why_tests_cant": "histories, geometry and float rounding combined", "anchors": ["fitness/triangles.go", "triangulation/incrdelaunay/delaunay.go", "rasterize/blocks.go"]}
{"id": "C59", "title": "The running program keeps a Delaunay triangulation of every member", "statement": "After the constructor of either algorithm and after every Step, the fitness function of each evaluated member holds a Delaunay triangulation of exactly that member's points (empty circumcircles, tiling without overlap or gap, right multiplicities), and the stored fitness is the cache-free fitness of that triangulation.", "quantifier": "every image 2x1 to 1920x1920, block size 1 to 16, every population, cutoff, cache size, mutation method, worker schedule and sort; any number of Steps", "why_tests_cant": "unbounded runs, goroutine interleavings, float rounding in every Insert and Remove", "anchors": ["algorithm/simple.go", "algorithm/modifiedgenetic.go", "algorithm/evaluator/parallel.go", "fitness/triangles.go", "triangulation/incrdelaunay/delaunay.go"]}
{"id": "C60", "title": "The program never panics and never hangs", "statement": "NewSimple and NewModifiedGenetic return, and every Step after them returns: no index out of range, no missing point, no division by zero, no endless loop in the rasteriser or in the triangulation, whatever the points, mutations, schedules and sorts. The fitnesses handed to sort.Sort are finite numbers and the best fitness of the simple algorithm never decreases. For the modified genetic algorithm the fitnesses must be positive; with fitness 0 a Step can panic.", "quantifier": "as C59", "why_tests_cant": "absence of panics over unbounded runs and schedules", "anchors": ["algorithm/simple.go:NewSimple", "algorithm/simple.go:Step", "algorithm/modifiedgenetic.go:NewModifiedGenetic", "algorithm/modifiedgenetic.go:Step", "triangulation/incrdelaunay/pointmap.go:pointMap.RemovePoint"]}
{"id": "C61", "title": "Fitness measures the covered share of the image", "statement": "The fitness is a finite number between 0.49 and 1.0001 times the share of the image covered by the triangles reported: it is never negative, it is 0 exactly if no triangle is reported, and it never exceeds 1.0001. A triangle has at most twice as many pixels as its area, and the triangles together never have more area than the image, so the blank area is never negative.", "quantifier": "every image 2x1 to 1920x1920 with channels in [0,1], every block size 1 to 16, every history of insertions and removals of image points; every member in every run of both algorithms", "why_tests_cant": "the bound combines float rounding of the colours, the float rasteriser edges, lattice-point counting and all reachable triangulations", "anchors": ["fitness/triangles.go:Calculate", "fitness/pixels.go", "rasterize/blocks.go", "triangulation/incrdelaunay/delaunay.go:IterTriangles"]}
{"id": "C62", "title": "The polygons cover the image", "statement": "Every location of the image lies in one of the polygons returned by Polygonate.", "quantifier": "every point group and image size", "why_tests_cant": "all point groups; the clipping decides about corners from the sides that cross the border", "anchors": ["polygonation/polygonate.go:Polygonate", "triangulation/incrdelaunay/voronoi.go:Voronoi"]}
{"id": "C63", "title": "Voronoi reports the Voronoi cells", "statement": "Voronoi computes one cell for each different point and reports those that are not empty. Each vertex of a cell is a vertex of the mathematical Voronoi cell of that point (three far away points included), rounded to float64 and then to float32, or lies exactly on the border; each vertex of the mathematical cell that lies in the image is there; if all lie in the image there are no others; and the far away points change no vertex in the image (if a side has at least 4 pixels). If Voronoi panics, then in the comparison of two vertices of one cell.", "quantifier": "every history of insertions and removals of image points with at most 32765 points, every image 2x1 to 1920x1920, every behaviour of sort.Slice", "why_tests_cant": "all reachable triangulations; float circumcentres against exact geometry", "anchors": ["triangulation/incrdelaunay/voronoi.go:Voronoi", "triangulation/incrdelaunay/geom.go"]}
{"id": "C64", "title": "Polygonate and IVoronoi never panic", "statement": "Polygonate, Voronoi and the operations of IVoronoi never panic for points of the image.", "quantifier": "every point group and image size", "why_tests_cant": "the panic needs two circumcentres that are rounded to the same direction from their point", "anchors": ["polygonation/polygonate.go:Polygonate", "triangulation/incrdelaunay/voronoi.go:IVoronoi.Insert", "triangulation/incrdelaunay/voronoi.go:processPoint"]}
{"id": "C65", "title": "The caches of the polygon functions change no fitness", "statement": "The fitness values computed by the cached polygon functions, run by the Parallel evaluator, are those the same functions compute without caches; if Calculate and Update alternate on every function, the caches add no panic. This holds for whole runs of both algorithms too.", "quantifier": "every sequence of evaluator calls whose cells lie in the image, every cache size 2^1 to 2^62, every image up to 32767x32767; runs: images 2x1 to 1920x1920, at most 32765 points, every schedule and mutator", "why_tests_cant": "all call sequences; a stale or colliding cache entry shows only after particular histories", "anchors": ["fitness/polygons.go:polygonsImageFunction.Calculate", "algorithm/evaluator/parallel.go"]}
{"id": "C66", "title": "The score of a polygon is the score of its pixels", "statement": "The score that the polygon functions give to a polygon is the difference score of the pixels of its fan of triangles. It does not depend on the block size and the fitness is a finite number.", "quantifier": "every image up to 32767x32767, every polygon of the image with at most 2^15 vertices, every block size 1 to 16", "why_tests_cant": "all polygons; the block rasteriser counts lines by subtraction, which goes wrong for lines whose ends come out reversed", "anchors": ["fitness/polygons.go:polygonsImageFunction.Calculate", "rasterize/blocks.go:DDATriangleBlocks", "geom/polygon.go:Triangulate"]}
{"id": "C67", "title": "A polygon fitness of 1 means a perfect picture", "statement": "The fitness computed from polygons measures how well the picture fits: it is 1 only if the polygons cover the image and match it.", "quantifier": "every image and every point group", "why_tests_cant": "pixels that no polygon covers cost nothing, on every image at once", "anchors": ["fitness/polygons.go:polygonsImageFunction.Calculate"]}
{"id": "C68", "title": "Runs over polygons evaluate the cells of the members' points", "statement": "In every state of a run of one of the algorithms over the polygon functions, each evaluated member's fitness is the fitness of the polygons of an incremental diagram of exactly that member's points (rounded to pixels), and the reported best fitness never decreases.", "quantifier": "every image 2x1 to 1920x1920, every initial population of groups of at most 32765 points, every schedule, mutator and number of generations; fitnesses that are not NaN (positive in the modified genetic algorithm)", "why_tests_cant": "all runs: bases, swaps and beneficial mutations shuffle the functions between members", "anchors": ["fitness/polygons.go", "algorithm/simple.go:Step", "algorithm/modifiedgenetic.go:Step", "algorithm/evaluator/parallel.go"]}
{"id": "C69", "title": "A run over polygons returns, except where two vertices of a cell cannot be compared", "statement": "Over the polygon functions of a picture every fitness is a finite number, so the best fitness never decreases whatever the fitnesses are. NewSimple and NewModifiedGenetic panic exactly if inserting the points of one of the groups they evaluate does; they and Step can only panic in the comparison of two vertices of a Voronoi cell of pixels of a child (and perhaps of a member that is kept). (That a run always returns is false: on every 1000x1000 picture four points make NewSimple panic.)", "quantifier": "every image 2x1 to 1920x1920, every block size 1 to 16, every initial population of groups of at most 32765 points, every schedule, swaps of sort.Sort, mutator and number of generations; caches of 2 to 2^62 entries", "why_tests_cant": "all runs and all pictures: a panic depends on rounding in one comparison of two vertices", "anchors": ["fitness/polygons.go", "algorithm/simple.go:NewSimple", "algorithm/simple.go:Step", "algorithm/modifiedgenetic.go:NewModifiedGenetic", "algorithm/modifiedgenetic.go:Step", "triangulation/incrdelaunay/voronoi.go:IVoronoi.processPoint"]}
{"id": "C70", "title": "The generic evaluators evaluate every member", "statement": "With NewOne or NewMany over a fitness function without state, in every state of a run each evaluated member has the fitness of its points, and the best fitness never decreases.", "quantifier": "every fitness function of the points, population, mutator, schedule and number of generations", "why_tests_cant": "all functions and interleavings", "anchors": ["algorithm/evaluator/evaluators.go:NewOne", "algorithm/evaluator/evaluators.go:NewMany", "algorithm/simple.go", "algorithm/modifiedgenetic.go"]}
{"id": "C71", "title": "The fitness functions of the package work with every evaluator", "statement": "With NewMany over the functions of NewTrianglesImageFunction (or PolygonsImageFunctions), every member's fitness is the one of its points.", "quantifier": "every image, population, mutator and schedule", "why_tests_cant": "the failure needs more than one generation and shows only as a lack of progress", "anchors": ["algorithm/evaluator/evaluators.go:NewMany", "fitness/triangles.go:NewTrianglesImageFunction", "fitness/triangles.go:trianglesImageFunction.Calculate", "fitness/polygons.go:polygonsImageFunction.Calculate"]}
{"id": "C72", "title": "What Triangulate draws is what the fitness functions score", "statement": "For the points of any member of a run, Triangulate returns triangles between the points rounded to the same pixels the fitness functions use, TrianglesOnImage renders them without a panic, and - if the third-party triangulation is a Delaunay triangulation - the drawn triangles are the scored ones: every scored triangle with no other point on its circumcircle is drawn, and every drawn triangle is scored.", "quantifier": "every image, run, member and third-party triangulation", "why_tests_cant": "two independent triangulation algorithms have to agree on all point sets; the differences (flat triangles at the border, points on a common circle, 0.49999999999999994) are rare", "anchors": ["triangulation/triangulator.go:Triangulate", "render/triangles.go:TrianglesOnImage", "triangulation/incrdelaunay/delaunay.go:IterTriangles", "fitness/util.go:createPoint"]}
{"id": "C73", "title": "The default algorithm runs from any image to a drawing", "statement": "utils.DefaultAlgorithm returns for every image and number of points, every Step after it returns however long the run, Best always has exactly the points asked for, all finite and in the unit square (so that they can be marshalled as JSON), its fitness is a number, is that of a Delaunay triangulation of those points, is not below that of any member and never gets worse, and Best can be triangulated and rendered on the image.", "quantifier": "every image of 4..1920 by 4..1920 pixels, every number of points up to 32765, all random draws, all schedules of the goroutines, all runs", "why_tests_cant": "composition of all parts of the program over unbounded runs and all schedules; infinite normal draws and tiny images do not occur in tests", "anchors": ["utils/default.go:DefaultAlgorithm", "mutation/gaussian.go:Mutate", "algorithm/simple.go:Step", "algorithm/simple.go:NewSimple", "algorithm/evaluator/parallel.go:NewParallel", "fitness/pixels.go:newPixelDataN"]}
{"id": "C74", "title": "Pictures have the best colours, and the fitness is how close the picture is to the image", "statement": "TrianglesOnImage and PolygonsOnImage give every shape the mean colour of the pixels it covers, but for a rounding below (n+3)/2^54, so that no other colour has a smaller squared distance from those pixels. The fitness of every member of a run is, between -0.0000007 and +0.000011, one minus the mean squared error of the picture of its triangles in those colours, a pixel that is not covered counting as one of the worst colour; and if the points are in general position and no circumcircle reaches the enclosing triangle, that is the picture Triangulate and TrianglesOnImage draw.", "quantifier": "every conforming image up to 1920x1920, every triangle and polygon within it, every history of insertions and removals, every run of the simple algorithm and every member, every run of the modified genetic algorithm and every evaluated member, every Delaunay triangulation returned by the third party", "why_tests_cant": "the score is calculated from sums of 8-bit values and summed-area tables over blocks, the colours by a running float64 mean in another package; that one is the squared error of the other is a relation over all images and triangulations with bounds on accumulated rounding", "anchors": ["render/triangles.go:TrianglesOnImage", "render/polygons.go:PolygonsOnImage", "color/color.go:Add", "fitness/triangles.go:Calculate", "fitness/pixels.go:fromImage", "triangulation/triangulator.go:Triangulate"]}
{"id": "C75", "title": "RunAlgorithm and GenerateAlgorithmOutput report the run they make", "statement": "After k iterations RunAlgorithm has printed, and the stats file of GenerateAlgorithmOutput has, exactly k lines, one for each iteration, with the generation (going up by reps) and the best fitness (never going down) of the state reached; the output file has the JSON text of the best points of the last state, from which the points can be read back without loss, and the fitness of the last line is that of their triangulation. The program never panics, marshalling never fails, it ends only if the output file cannot be written, and otherwise goes on for ever.", "quantifier": "every algorithm for the lines and the file; for generations, fitnesses, panics and endless running every run of the default algorithm, every number of iterations and every reps >= 0", "why_tests_cant": "the functions do not return, so no test calls them; the statement is about every prefix of an endless run", "anchors": ["utils/output.go:GenerateAlgorithmOutput", "utils/fitness.go:RunAlgorithm", "normgeom/normpoint.go:NormPoint", "algorithm/algorithm.go:Algorithm"]}
{"id": "C76", "title": "Traces and profiles are complete", "statement": "GenerateTrace takes 2000 Steps and traces the 1000 Steps after them, and its file has the whole trace. GenerateProfile takes Steps five at a time until the given seconds have passed and then returns.", "quantifier": "every algorithm, every way the runtime cuts the trace into writes, every clock", "why_tests_cant": "whether the end of the trace is missing depends on the sizes of the writes of the Go runtime", "anchors": ["utils/trace.go:GenerateTrace", "utils/profile.go:GenerateProfile"]}
{"id": "C77", "title": "CompareAlgorithms compares", "statement": "CompareAlgorithms makes both algorithms, steps them and prints their averages.", "quantifier": "every pair of algorithms", "why_tests_cant": "prints to the console and has no result", "anchors": ["utils/compare.go:CompareAlgorithms"]}
{"id": "C78", "title": "Mutations and cooling are as large and as frequent as configured", "statement": "A mutated coordinate is the old coordinate moved by draw*amount/2 (Gaussian) or (draw-1/2)*amount (random) and put back into [0,1], up to rounding; a point is mutated exactly when its draw is below the configured rate (2/n by default). Iteration k of N of the spaced generator moves a coordinate by (draw-1/2)*0.02^(k/N).", "quantifier": "all rates, all finite amounts (overflow included), all draws, all groups, all iteration counts up to 2^53", "why_tests_cant": "the moves are random and small rounding errors must be told from wrong factors for all amounts; tests only see that something changed", "anchors": ["mutation/gaussian.go:gaussianMethod.Mutate", "mutation/gaussian.go:DefaultGaussianMethod", "mutation/random.go:randomMethod.Mutate", "generator/spaced.go:NewSpacedGenerator", "generator/spaced.go:spacedGenerator.Generate"]}
{"id": "C79", "title": "The spaced generator does not bring points closer together", "statement": "No iteration of the spaced generator makes the smallest distance between two points of the group smaller.", "quantifier": "all groups, temperatures and draws", "why_tests_cant": "needs a candidate that falls exactly onto another point; random tests do not hit it", "anchors": ["generator/spaced.go:spacedGenerator.Generate", "generator/spaced.go:closestTo"]}
{"id": "C80", "title": "A polygon that was handed out stays what it was", "statement": "Polygons received from Voronoi or IVoronoi.IterPolygons, and the coordinates stored in the caches of the polygon fitness functions, do not change later, and diagrams that were set to each other do not influence each other.", "quantifier": "all diagrams, sequences of calls on any number of diagrams, growth policies of append, and sorts", "why_tests_cant": "the scratch slices are reused, and whether a stale slice is visible depends on capacities and on the order of calls; tests look at a polygon only inside the callback", "anchors": ["triangulation/incrdelaunay/voronoi.go:Voronoi", "triangulation/incrdelaunay/voronoi.go:IVoronoi.processPoint", "triangulation/incrdelaunay/voronoi.go:IVoronoi.IterPolygons", "triangulation/incrdelaunay/polygonmap.go:polygonMap.Set", "fitness/polygons.go:polygonsImageFunction.Calculate"]}
{"id": "C81", "title": "The fitness of polygons is how close the picture of the cells is to the image", "statement": "If no triangle of the fans of the rounded cells is a line and the fans cover at most one and a half times as many pixels as the image has, the fitness of the polygon functions is, between -0.0000013 and +0.000009, one minus the squared error of the cells in the colours PolygonsOnImage gives them, divided by that of the worst picture; a pixel in no cell costs nothing and one in two cells counts twice. The score of a single cell is 65025 times its squared error, at most one too small per pixel.", "quantifier": "every conforming image up to 1920x1920, block size, every polygon of the image, every diagram in the frame of the image, every run of either algorithm over the polygon functions and every evaluated member, all sorts and schedules", "why_tests_cant": "scores come from 8-bit sums and summed-area tables over blocks and the colours from a running float64 mean in another package; that they agree is a relation over all images and diagrams with bounds on accumulated rounding", "anchors": ["fitness/polygons.go:polygonsImageFunction.Calculate", "fitness/pixels.go:fromImage", "render/polygons.go:PolygonsOnImage", "color/color.go:Add", "rasterize/polygon.go:DDAPolygonBlocks"]}
{"id": "C82", "title": "A cell that is not cut by the image is covered by its polygon, and nothing more", "statement": "If all vertices of the Voronoi cell of a point lie in the image, every location of the image whose nearest point it is lies within 0.5001 in each direction of the hull of its polygon, rounded to pixels by Polygonate or by the fitness function; and every location in that hull lies within 0.5001 of the cell. (For cells that are cut C62 shows that this fails.)", "quantifier": "every image up to 1920x1920 with a side of at least 4, all points of the image (up to 32765), every history on an IVoronoi, every call of Polygonate, every evaluated member of a run over the polygon functions, every rational location, all sorts", "why_tests_cant": "that the circumcentres found around a point span the whole cell is a statement about infinitely many locations and all point sets; it needs the Delaunay property of the triangulation and a separation argument", "anchors": ["triangulation/incrdelaunay/voronoi.go:Voronoi", "triangulation/incrdelaunay/voronoi.go:processPoint", "polygonation/polygonate.go:Polygonate", "fitness/polygons.go:Calculate"]}
{"id": "C83", "title": "The test whether a corner of the image lies in a cell", "statement": "polygonPointIntersect is exact for convex polygons with whole coordinates, whichever way they turn, the closing side included; on any coordinates up to 8192 it accepts points that are 2^-22 inside every side and rejects points that are more than 2^-22 left of one side and right of another and are no corner. So the corners added to a cell are corners of the image and not outside the cell.", "quantifier": "every convex polygon with whole coordinates up to 2^24 and every such point; every polygon and point with float coordinates up to 8192; every list of vertices and intersection counts", "why_tests_cant": "the result comes from signs of rounded float products over all sides; exactness and the margin are bounds over all coordinates", "anchors": ["triangulation/incrdelaunay/voronoi.go:polygonPointIntersect"]}
{"id": "C84", "title": "The vertices of the cells come in counterclockwise order", "statement": "In every polygon of a Voronoi diagram whose vertices lie in clearly different directions from a centre (a cross product of more than 2^-22, or different sides of the centre) the vertices come in counterclockwise order around that centre: the point of the cell if the cell lies in the image, the average of the vertices up to 2^-21 if the cell is cut. If the vertices are in convex position around the centre, the polygon is convex, with every vertex left of every side or on it.", "quantifier": "every image up to 1920x1920 with a side of at least 4, all points of the image (up to 32765), every history on an IVoronoi or a Delaunay, every call of Voronoi and Polygonate, every cell of up to 1048576 vertices, every sort that sorts under a strict total order", "why_tests_cant": "the order comes from signs of rounded float products in a comparison passed to sort.Slice; that the comparison is a strict order on every set of clear directions is a statement about all coordinates", "anchors": ["triangulation/incrdelaunay/voronoi.go:processPoint", "triangulation/incrdelaunay/voronoi.go:Voronoi", "polygonation/polygonate.go:Polygonate"]}
{"id": "C85", "title": "HasPoint and GetClosestTo answer from the points held", "statement": "After every history of insertions and removals HasPoint does not panic on a point of the image and is true exactly for the points held; GetClosestTo returns one of the points held, and none of them is nearer (images with a side of at least 4; C51 shows the failure on 3x3). So a point is held exactly if it is its own closest point.", "quantifier": "every image from 2x1 to 1920x1920, every valid history of insertions and removals of points of the image, every queried point of the image, every sort of the hulls", "why_tests_cant": "HasPoint looks only at the triangles registered in one cell of the grid, found by float arithmetic; that some triangle around a held point is always registered there and no stale triangle is, holds over all histories", "anchors": ["triangulation/incrdelaunay/delaunay.go:HasPoint", "triangulation/incrdelaunay/grid.go:HasPoint", "triangulation/incrdelaunay/delaunay.go:GetClosestTo"]}
{"id": "C86", "title": "The slices and scratch buffers of a triangulation are not observable", "statement": "On Go's slices, where append and Set reuse arrays, removals leave old elements beyond the lengths, every call uses the scratch slices edges, hull and ears of the calls before, and RemoveCircumcirclesThatContain iterates over a slice that the removals in its body shorten, every triangulation behaves as a value: any program of New, Insert, Remove and Set over any number of triangulations gives each of them the value computed without sharing, panics in the same cases, does not depend on how append grows arrays or on what earlier calls left in memory, and changes a triangulation only by calls on itself. Set of a triangulation to itself is the exception: the next Insert overwrites triangles in use.", "quantifier": "every program over any number of triangulations of any sizes and points (also outside the image), every growth of append, every sort of the hulls", "why_tests_cant": "stale elements and shared arrays show only after particular sequences of growth, removal and Set; the capacities are chosen by the runtime", "anchors": ["triangulation/incrdelaunay/delaunay.go:Insert", "triangulation/incrdelaunay/delaunay.go:Remove", "triangulation/incrdelaunay/delaunay.go:Set", "triangulation/incrdelaunay/grid.go:RemoveCircumcirclesThatContain", "triangulation/incrdelaunay/pointmap.go:Set"]}
{"id": "C87", "title": "Functions that share one memory through pointers run as functions with triangulations of their own", "statement": "In the program all triangulations lie in one memory, every fitness function holds a pointer to its triangulation and, between SetBase and Calculate, a pointer to the triangulation of its base, which another function owns and which is overwritten in the same generation. Nevertheless a run of either algorithm in memory has the same fitnesses in every generation, the same members and the same best member as the run over values; NewSimple, NewModifiedGenetic and Step return; every member's pointer leads to the Delaunay triangulation of its points with its fitness (in the modified genetic algorithm except members left out with fitness 0); no two functions ever point to one triangulation; Base is nil between generations; the best fitness never gets worse.", "quantifier": "every image, population size, cutoff, groups of points, mutator that mutates distinct points, every schedule of the workers, every sort, every growth of append, any number of generations", "why_tests_cant": "a triangulation read through Base after its owner has overwritten it gives a wrong fitness only for particular orders of the workers and positions after sorting", "anchors": ["fitness/triangles.go:Calculate", "fitness/triangles.go:SetBase", "algorithm/evaluator/parallel.go:SetBase", "algorithm/simple.go:Step", "algorithm/modifiedgenetic.go:Step", "triangulation/incrdelaunay/delaunay.go:Set"]}
{"id": "C88", "title": "The scheduling of the workers decides nothing in the simple algorithm", "statement": "Two runs of the simple algorithm with the same start groups, the same random mutations and the same sorting, but with any two schedules of the workers in every generation, have after every Step the same members, fitnesses, best member, statistics and triangulations (or Voronoi diagrams), and if one of them returns, so does the other; only the caches may differ. In the modified genetic algorithm this holds up to the end of calculateFitnesses; the whole Step does depend on the schedule: which of two equally fit members reports first decides the combined member and with it Best.", "quantifier": "every image, cutoff, population, mutator, sequence of sorts, any number of generations and any two valid schedules for each of them; triangle functions with no assumption on points, polygon functions on usual images", "why_tests_cant": "a test sees the few interleavings its machine produces; a dependence on the order shows only when a worker overwrites what another one still reads, or in ties", "anchors": ["algorithm/simple.go:calculateFitnesses", "algorithm/modifiedgenetic.go:calculateFitnesses", "algorithm/modifiedgenetic.go:setBeneficial", "fitness/triangles.go:Calculate", "algorithm/evaluator/parallel.go:Prepare"]}
{"id": "C89", "title": "Calculate and Update may be treated as single events", "statement": "While calculateFitnesses runs, the workers, Prepare and the Updates of the collecting loop are interleaved step by step: copying a field of the base triangulation, one Remove, one Insert, looking up and adding one triangle, writing one cache entry. Any such execution that has come to its end leaves the members, fitnesses, triangulations, caches and messages that some execution leaves in which every calculation and every Update is one event. If one execution of the latter kind returns, then no step of any interleaved one panics, none goes on for ever (so there is no deadlock or livelock), and they all end with the same members, fitnesses and triangulations.", "quantifier": "every image, population, cutoff, cache size, every state in which calculateFitnesses is called by the simple algorithm (no assumption on the points) or by the modified genetic algorithm with positive fitnesses, and every interleaving", "why_tests_cant": "the interleavings are too many and are chosen by the Go scheduler; the race detector sees only those that happen", "anchors": ["algorithm/simple.go:calculateFitnesses", "algorithm/modifiedgenetic.go:calculateFitnesses", "fitness/triangles.go:Calculate", "algorithm/evaluator/parallel.go:Update", "algorithm/evaluator/parallel.go:Prepare", "triangulation/incrdelaunay/delaunay.go:Set"]}
{"id": "C90", "title": "NormFloat64 accepts what lies under the normal density and nothing else", "statement": "The three tables of NormFloat64 are those of the ziggurat method for the density exp(-x^2/2): every level is the density at the edge of its strip to within 10^-7, all 128 strips have the same area to within 10^-7, and the base strip begins where the last one ends, at rn. Each iteration picks a point (x, height); it is returned at once on the fast path, or after comparing with math.Exp, exactly if it lies under the density curve, except within 10^-6 of the curve. In the base strip a point beyond rn is accepted exactly if x^2 < 2y for x = -ln u / rn and y = -ln v, except within 10^-9, and the result is rn + x with the sign of the word.", "quantifier": "all 128 entries of each table, all 2^32 random words, all Float32 draws, any math.Exp within 2^-50 and math.Log within 2^-40 of the functions", "why_tests_cant": "one wrong digit in one of 384 constants distorts the distribution by less than a statistical test of the samples can see", "anchors": ["random/random.go:NormFloat64", "random/random.go:kn", "random/random.go:wn", "random/random.go:fn"]}
{"id": "C91", "title": "The polygon functions, too, may be interleaved step by step, and their cache arrays are not written while read", "statement": "With the polygon functions, calculateFitnesses executes as if every Calculate and every Update were one event: any execution in which the copying of the fields of a Voronoi diagram, every Remove and Insert, every polygon and every cache entry is a step of its own, and which has come to its end, leaves the members, fitnesses, diagrams, caches and messages of such an execution. If one of the latter returns, no step of any interleaved execution panics, none goes on for ever, and all end with the same members, fitnesses and diagrams. Until a worker has run, the cache array its function reads stays as it was, and after Prepare it is never the array the results are stored in.", "quantifier": "every usual image and conforming sorts, every population of up to 32765 points per member, every cutoff and cache size, every state in which calculateFitnesses is called by the simple algorithm or by the modified genetic algorithm with positive fitnesses, every interleaving", "why_tests_cant": "the interleavings are chosen by the Go scheduler; the shared state (the base diagram with its polygon map, the two cache arrays) is seen changing only if a wrong one happens", "anchors": ["algorithm/simple.go:calculateFitnesses", "algorithm/modifiedgenetic.go:calculateFitnesses", "fitness/polygons.go:Calculate", "triangulation/incrdelaunay/voronoi.go:Set", "algorithm/evaluator/parallel.go:Update", "algorithm/evaluator/parallel.go:Prepare"]}
{"id": "C92", "title": "What is proved of the runs holds of runs with the workers interleaved step by step", "statement": "Let the program run NewSimple and then any number of Steps (or NewModifiedGenetic and Steps), with the goroutines of calculateFitnesses interleaved step by step in each. Every state it reaches is a state of the runs the theorems about the algorithms speak of, in which Calculate and Update are single events: so the fitnesses are those of the members, BestFitness never decreases, and so on. In every such state the next Step makes a new generation, no step of any interleaving of its workers panics, none of them goes on for ever, one comes to its end, and what follows (noting and combining the mutations, sorting) returns.", "quantifier": "all usual images and conforming sorts, all populations of up to 32765 points per member, cutoffs, cache sizes, mutation methods that stay in the unit square, all interleavings of every generation; for modifiedGenetic all fitnesses positive", "why_tests_cant": "the interleavings of all generations multiply; a test sees one of them", "anchors": ["algorithm/simple.go:Step", "algorithm/simple.go:calculateFitnesses", "algorithm/modifiedgenetic.go:Step", "algorithm/modifiedgenetic.go:calculateFitnesses", "algorithm/modifiedgenetic.go:combineMutations"]}
{"id": "C93", "title": "Runs over the polygon functions with the workers interleaved step by step", "statement": "Let the program run NewSimple and Steps (or NewModifiedGenetic and Steps) over the polygon functions, with the goroutines of calculateFitnesses interleaved step by step in each. Every state it reaches is a state of the runs in which Calculate and Update are single events: every fitness is a number and that of the Voronoi cells of the member, and BestFitness never decreases. NewSimple returns with every interleaving if the diagram of no member panics. In every such state no interleaving of the next Step goes on for ever, a step of one panics only if comparing two vertices of a cell of a child does, and otherwise sorting (and combining the mutations) makes the next state.", "quantifier": "all usual images and conforming sorts, all populations of up to 32765 points per member, cutoffs, cache sizes, mutation methods that stay in the unit square, all interleavings of every generation; for modifiedGenetic all fitnesses positive", "why_tests_cant": "the interleavings of all generations multiply, and whether a comparison of cell vertices panics depends on the points", "anchors": ["algorithm/simple.go:Step", "algorithm/simple.go:calculateFitnesses", "algorithm/modifiedgenetic.go:Step", "algorithm/modifiedgenetic.go:calculateFitnesses", "fitness/polygons.go:Calculate"]}
{"id": "C94", "title": "Every run with single events is an interleaved run", "statement": "The states reached by NewSimple and Steps (NewModifiedGenetic and Steps) with the goroutines of calculateFitnesses interleaved step by step are exactly the states of the runs in which each Calculate and each Update is a single event: each of the latter is reached by an interleaving, too, with the same results in the same order in the channel. So whatever is refuted for the runs with single events is refuted for the interleaved ones; in particular, two interleavings of the same Step of modifiedGenetic, with the same random choices, can return different best triangulations.", "quantifier": "all images, sorts, populations and mutations of the runs of C92 and C93, all schedules of single events and all interleavings", "why_tests_cant": "A test runs under the schedules the Go scheduler happens to choose; that the two sets of reachable states are equal is a statement about all of them.", "anchors": ["algorithm/simple.go:Step", "algorithm/simple.go:calculateFitnesses", "algorithm/modifiedgenetic.go:Step", "algorithm/modifiedgenetic.go:calculateFitnesses", "fitness/polygons.go:Calculate"]}
{"id": "C95", "title": "The comparisons that order the vertices of a cell", "statement": "The comparisons passed to sort.Slice for the vertices of a Voronoi cell never contradict themselves in a cycle: there are no vertices x1, ..., xn each of which is said to come before the next, and the last before the first (so no vertex is before itself, and of two vertices at most one is before the other). But they are not transitive, as sort.Slice requires: there are a, b, d within a small image with a before b and b before d, while a and d are not distinguished. So whether the first sort panics on given vertices depends on the order in which it finds them.", "quantifier": "all centres and vertices with coordinates of up to 8192 in absolute value, cycles of any length", "why_tests_cant": "The comparison rounds its products; which of the 2^256 pairs of vertices are decided wrongly or not at all cannot be enumerated.", "anchors": ["triangulation/incrdelaunay/voronoi.go:processPoint", "triangulation/incrdelaunay/voronoi.go:Voronoi"]}
{"id": "C96", "title": "The groups newPointGroup returns must be different arrays", "statement": "If the slices newPointGroup returns to NewSimple and NewModifiedGenetic have different arrays, it does not matter which: members, fitnesses, Best, Stats, noted mutations and panics are, after any number of Steps, the same as if each had been allocated for the algorithm. If newPointGroup returns the same slice twice, this fails: after two Steps of simple BestFitness is greater than the fitness of the points Best returns.", "quantifier": "all evaluators, mutators, schedules and sorts, all populations and any assignment of arrays, any number of Steps", "why_tests_cant": "That aliasing of the initial groups is the only way in which the identity of the arrays matters is a statement about all runs; the generators of the project always return new groups, so no test meets the other case.", "anchors": ["algorithm/simple.go:NewSimple", "algorithm/modifiedgenetic.go:NewModifiedGenetic", "normgeom/normpoint.go:Set"]}
{"id": "C97", "title": "A cutoff that is too large stops all progress", "statement": "If cutoff is at least the population size in simple, or the population size is at most twice the cutoff in modifiedGenetic, no Step ever tries a new point: every member of every generation, and Best, has exactly the points of one of the groups newPointGroup returned. Both bounds are exact: with one member more there are runs whose Best is new after one Step.", "quantifier": "all evaluators, mutators, valid schedules and sequences of swaps, all populations and cutoffs within the bounds, any number of Steps", "why_tests_cant": "Nothing fails: the Steps return, the generation counter grows and Best is valid. That no sequence of Steps with any random source, evaluator or scheduling changes a point is a statement about all runs.", "anchors": ["algorithm/simple.go:newGeneration", "algorithm/modifiedgenetic.go:newGeneration", "algorithm/modifiedgenetic.go:calculateFitnesses", "algorithm/modifiedgenetic.go:combineMutations"]}
{"id": "C98", "title": "Writing into the points Best returned does not disturb the algorithms", "statement": "Best returns the algorithm's own slice. Whatever a caller writes into it between Steps, every later Step does exactly what it would have done otherwise: same members, fitnesses, Best, Stats, evaluator state and panics, since Best is only ever written. For the groups newPointGroup returned this is false: if their slice is kept and written to between Steps, BestFitness is no longer the fitness of the points of Best after the next Step.", "quantifier": "all evaluators, mutators, schedules and sorts, all populations and cutoffs, any number of Steps, before each Step any function of the points that keeps their number", "why_tests_cant": "A test can write one value into Best after one Step; that no execution of any Step ever reads the slice is a statement about all of them.", "anchors": ["algorithm/simple.go:Best", "algorithm/simple.go:updateFitnesses", "algorithm/modifiedgenetic.go:Best", "algorithm/modifiedgenetic.go:updateFitnesses"]}
{"id": "C99", "title": "How sort.Sort sorts matters only for ties", "statement": "Two runs that differ only in the swaps sort.Sort makes are equal in every respect (members, fitnesses, Best, Stats, noted mutations, triangulations, caches) as long as no two fitnesses of a generation are equal in one of them; this holds for simple and modifiedGenetic and for the triangle and polygon functions. With ties a sort does not decide BestFitness, but it does decide Best: on a black image two triangles of the same size give different Best for two correct sorts.", "quantifier": "all images, mutators, schedules and swap sequences that sort, all populations and cutoffs, any number of Steps", "why_tests_cant": "sort.Sort is not stable and its swaps have changed between Go versions; a test runs one version. Whether a run can be reproduced with another is a statement about all sequences of swaps.", "anchors": ["algorithm/simple.go:updateFitnesses", "algorithm/simple.go:Swap", "algorithm/modifiedgenetic.go:updateFitnesses", "algorithm/modifiedgenetic.go:Swap", "algorithm/evaluator/parallel.go:Swap"]}
