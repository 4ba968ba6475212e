{
 "claims": [
  {
   "property": "C01",
   "status": "proved",
   "theorems": [
    "C01_constrain"
   ],
   "note": "NaN escapes, as stated."
  },
  {
   "property": "C02",
   "status": "proved",
   "theorems": [
    "C02_set",
    "C02_copy"
   ],
   "note": ""
  },
  {
   "property": "C03",
   "status": "proved",
   "theorems": [
    "C03_gaussian_log",
    "C03_random_log"
   ],
   "note": ""
  },
  {
   "property": "C04",
   "status": "proved",
   "theorems": [
    "C04_gaussian_unit",
    "C04_random_unit"
   ],
   "note": ""
  },
  {
   "property": "C05",
   "status": "proved",
   "theorems": [
    "C05_random_generator",
    "C05_spaced_generator"
   ],
   "note": ""
  },
  {
   "property": "C06",
   "status": "proved",
   "theorems": [
    "C06_spaced_move",
    "C06_nearest_exists"
   ],
   "note": ""
  },
  {
   "property": "C07",
   "status": "proved",
   "theorems": [
    "C07_fan"
   ],
   "note": ""
  },
  {
   "property": "C08",
   "status": "proved",
   "theorems": [
    "C08_round_trip"
   ],
   "note": ""
  },
  {
   "property": "C09",
   "status": "proved",
   "theorems": [
    "C09_fast_round",
    "C09_exception"
   ],
   "note": ""
  },
  {
   "property": "C10",
   "status": "proved",
   "theorems": [
    "C10_average"
   ],
   "note": ""
  },
  {
   "property": "C11",
   "status": "proved",
   "theorems": [
    "C11_to_data"
   ],
   "note": ""
  },
  {
   "property": "C12",
   "status": "proved",
   "theorems": [
    "C12_C13_pixels"
   ],
   "note": ""
  },
  {
   "property": "C13",
   "status": "proved",
   "theorems": [
    "C12_C13_pixels",
    "C13_exact_refuted"
   ],
   "note": "Exactness of the stored squares is false; the witness is the colour (7,0,0)."
  },
  {
   "property": "C14",
   "status": "proved",
   "theorems": [
    "C14_blocks",
    "C14_wraps_at_17"
   ],
   "note": ""
  },
  {
   "property": "C15",
   "status": "proved",
   "theorems": [
    "C15_rows"
   ],
   "note": ""
  },
  {
   "property": "C16",
   "status": "proved",
   "theorems": [
    "C16_bounds"
   ],
   "note": "Bounding box for |coordinate| <= 2^24, rows not inverted for |coordinate| <= 2^15."
  },
  {
   "property": "C17",
   "status": "proved",
   "theorems": [
    "C17_no_duplicates"
   ],
   "note": ""
  },
  {
   "property": "C18",
   "status": "proved",
   "theorems": [
    "C18_blocks_equal_lines",
    "C18_block_size_zero_loops"
   ],
   "note": "Block sizes up to 2^24, |coordinate| <= 2^24. Block size 0 loops forever."
  },
  {
   "property": "C19",
   "status": "proved",
   "theorems": [
    "C19_vertex_order"
   ],
   "note": ""
  },
  {
   "property": "C20",
   "status": "proved",
   "theorems": [
    "C20_watertight",
    "C20_at_most_once",
    "C20_shared_edge"
   ],
   "note": "|coordinate| <= 2^15."
  },
  {
   "property": "C21",
   "status": "proved",
   "theorems": [
    "C21_polygons"
   ],
   "note": ""
  },
  {
   "property": "C22",
   "status": "proved",
   "theorems": [
    "C22_triangles_on_image"
   ],
   "note": ""
  },
  {
   "property": "C23",
   "status": "proved",
   "theorems": [
    "C23_polygons_on_image"
   ],
   "note": "Area of the image times number of vertices below 2^53."
  },
  {
   "property": "C24",
   "status": "proved",
   "theorems": [
    "C24_cache_transparent",
    "C24_cache_no_panic",
    "C24_calculate_twice_refuted"
   ],
   "note": "Every sequence of operations on the parallel evaluator with triangle functions, aliasing and collisions included. If Calculate and Update do not alternate, Update can panic (refuted)."
  },
  {
   "property": "C25",
   "status": "proved",
   "theorems": [
    "C25_exact_pixels",
    "C25_block_size",
    "C25_history_tris"
   ],
   "note": "Images up to 32767x32767, block sizes 1..16."
  },
  {
   "property": "C26",
   "status": "proved",
   "theorems": [
    "C26_exact_squares",
    "C26_score_bounds",
    "C26_fitness_finite",
    "C26_fitness_above_one_refuted",
    "C26_overflow_refuted"
   ],
   "note": "Score bounds for triangles of at most 6876000 pixels; above that int64 overflows (refuted for larger triangles)."
  },
  {
   "property": "C27",
   "status": "proved",
   "theorems": [
    "C27_same_fitness"
   ],
   "note": ""
  },
  {
   "property": "C28",
   "status": "proved",
   "theorems": [
    "C28_simple",
    "C28_genetic",
    "C28_no_base_refuted",
    "C28_genetic_zero_refuted"
   ],
   "note": "Whole runs on the parallel evaluator with triangle functions, images up to 1920x1920. modifiedGenetic needs positive fitnesses (refuted for 0)."
  },
  {
   "property": "C29",
   "status": "proved",
   "theorems": [
    "C29_in_range",
    "C29_modulo",
    "C29_equal_hash",
    "C29_empty_panics",
    "C29_one_entry_refuted"
   ],
   "note": ""
  },
  {
   "property": "C30",
   "status": "proved",
   "theorems": [
    "C30_simple_shape",
    "C30_genetic_shape",
    "C30_gaussian_ok",
    "C30_random_ok",
    "C30_cutoff_zero_hangs",
    "C30_many_bases_panic"
   ],
   "note": "Any evaluator, any schedule, any sort; the library's mutation methods satisfy the mutator contract. Cutoff 0 hangs, a cutoff above the population size panics."
  },
  {
   "property": "C31",
   "status": "proved",
   "theorems": [
    "C31_simple_best",
    "C31_genetic_best",
    "C31_genetic_negative_refuted"
   ],
   "note": "The modified genetic algorithm needs positive fitnesses: with negative ones Best is a member that was never evaluated (refuted)."
  },
  {
   "property": "C32",
   "status": "proved",
   "theorems": [
    "C32_simple_kept",
    "C32_simple_monotone",
    "C32_simple_parallel"
   ],
   "note": "Evaluators without NaN that give an unchanged member its old fitness again. C32_simple_parallel has no assumption on the evaluator."
  },
  {
   "property": "C33",
   "status": "proved",
   "theorems": [
    "C33_genetic_monotone",
    "C33_genetic_parallel"
   ],
   "note": "Evaluators whose fitness is a positive function of the points; any cutoff from 1 to size-1. C33_genetic_parallel has no assumption on the evaluator."
  },
  {
   "property": "C34",
   "status": "proved",
   "theorems": [
    "C34_genetic_combined",
    "C34_schedule_independent"
   ],
   "note": "Evaluators whose fitness is a positive function of the points."
  },
  {
   "property": "C35",
   "status": "proved",
   "theorems": [
    "C35_no_panic",
    "C35_progress",
    "C35_terminates",
    "C35_all_received",
    "C35_blocks_forever"
   ],
   "note": "Small-step model of main goroutine, workers and channel; every finished run is a schedule in the sense of the other theorems."
  },
  {
   "property": "C36",
   "status": "proved",
   "theorems": [
    "C36_simple",
    "C36_genetic",
    "C36_genetic_zero_refuted"
   ],
   "note": "simple: every run and interleaving, any order the sort leaves. modifiedGenetic: runs with positive fitnesses; with fitness 0 the race exists (refuted)."
  },
  {
   "property": "C37",
   "status": "proved",
   "theorems": [
    "C37_simple_bases",
    "C37_genetic_bases"
   ],
   "note": ""
  },
  {
   "property": "C38",
   "status": "proved",
   "theorems": [
    "C38_simple_live",
    "C38_genetic_live"
   ],
   "note": ""
  },
  {
   "property": "C39",
   "status": "proved",
   "theorems": [
    "C39_point_map",
    "C39_counter_wraps"
   ],
   "note": ""
  },
  {
   "property": "C40",
   "status": "proved",
   "theorems": [
    "C40_polygon_map"
   ],
   "note": ""
  },
  {
   "property": "C41",
   "status": "proved",
   "theorems": [
    "C41_num_points",
    "C41_set",
    "C41_set_refuted"
   ],
   "note": "C41_num_points: histories of Insert and Remove; C41_set: over histories with Set too NumPoints counts the insertions minus removals of the object itself, so that after a Set it is not the number of points held (C41_set_refuted)."
  },
  {
   "property": "C42",
   "status": "proved",
   "theorems": [
    "C42_free_list",
    "C42_insert_keeps"
   ],
   "note": "Every history of insertions and removals that keeps at most 65536 slots."
  },
  {
   "property": "C43",
   "status": "proved",
   "theorems": [
    "C43_cells",
    "C43_no_panic"
   ],
   "note": ""
  },
  {
   "property": "C44",
   "status": "proved",
   "theorems": [
    "C44_complete",
    "C44_large_refuted"
   ],
   "note": "Complete up to 1920x1920; C44_large_refuted gives a miss at 8190x8190."
  },
  {
   "property": "C45",
   "status": "proved",
   "theorems": [
    "C45_no_panic",
    "C45_delaunay",
    "C45_large_refuted"
   ],
   "note": "Images up to 1920x1920 without further assumption; larger images (to 8191) if the grid look-ups are complete."
  },
  {
   "property": "C46",
   "status": "proved",
   "theorems": [
    "C46_nondegenerate",
    "C46_cover_once",
    "C46_side_once",
    "C46_neighbour",
    "C46_large_refuted"
   ],
   "note": "Images up to 1920x1920 without further assumption; larger images (to 8191) if the grid look-ups are complete."
  },
  {
   "property": "C47",
   "status": "proved",
   "theorems": [
    "C47_visible"
   ],
   "note": "Images up to 1920x1920 without further assumption; larger images (to 8191) if the grid look-ups are complete."
  },
  {
   "property": "C48",
   "status": "proved",
   "theorems": [
    "C48_no_panic",
    "C48_delaunay",
    "C48_nondegenerate",
    "C48_cover_once",
    "C48_side_once",
    "C48_neighbour",
    "C48_visible",
    "C48_gone",
    "C48_copies",
    "C48_disjoint_pixels",
    "C48_count"
   ],
   "note": "All histories of insertions and removals with at most 32765 points at a time, images 2x1 to 1920x1920, with the float scores of the code: the ear with the lowest float score always has an empty circumcircle. sort.Slice is assumed to sort (any sort that never compares an element with itself)."
  },
  {
   "property": "C49",
   "status": "proved",
   "theorems": [
    "C49_refines",
    "C49_set",
    "C49_set_succeeds",
    "C49_independent",
    "C49_triangulation",
    "C49_goes_on",
    "C49_self_refuted"
   ],
   "note": "On a heap of arrays with lengths and capacities: objects of slices (triangles, freeTriangles, grid cells, point-map buckets) under any operations and Sets behave as independent values. Set of a triangulation to itself is refuted."
  },
  {
   "property": "C50",
   "status": "proved",
   "theorems": [
    "C50_encloses",
    "C50_wraps_refuted",
    "C50_corner_8192_refuted"
   ],
   "note": "Enclosure holds up to 13106 except 1x1; the limits are shown by witnesses."
  },
  {
   "property": "C51",
   "status": "proved",
   "theorems": [
    "C51_nearest_corner",
    "C51_nearest_point",
    "C51_small_refuted"
   ],
   "note": "Nearest corner after any history of insertions and removals; nearest inserted point after insertions, images with a side of at least 4 (refuted at 3x3)."
  },
  {
   "property": "C52",
   "status": "proved",
   "theorems": [
    "C52_voronoi",
    "C52_incremental"
   ],
   "note": "sort.Slice is any function that permutes and panics only if its comparison does (sorter_ok). eps is 0.000100001 because the code tests against float64(w)+0.0001."
  },
  {
   "property": "C53",
   "status": "proved",
   "theorems": [
    "C53_polygons"
   ],
   "note": "For the calls of Polygonate that return; C64 shows that some panic."
  },
  {
   "property": "C54",
   "status": "proved",
   "theorems": [
    "C54_cells",
    "C54_panic"
   ],
   "note": "The cells of Insert and Remove are compared with the exact Voronoi cells of the points present."
  },
  {
   "property": "C55",
   "status": "proved",
   "theorems": [
    "C55_area",
    "C55_invariance"
   ],
   "note": ""
  },
  {
   "property": "C56",
   "status": "proved",
   "theorems": [
    "C56_no_panic",
    "C56_fast",
    "C56_bounded",
    "C56_tail",
    "C56_finite",
    "C56_num",
    "C56_finite_refuted"
   ],
   "note": "The generator, math.Log and math.Exp are oracles. Results are finite if Float32 never returns 0, and never a NaN; two zero draws of Float32 in the tail give an infinite result (refuted finiteness)."
  },
  {
   "property": "C57",
   "status": "proved",
   "theorems": [
    "C57_not_freed",
    "C57_one_pixel"
   ],
   "note": ""
  },
  {
   "property": "C58",
   "status": "proved",
   "theorems": [
    "C58_disjoint_pixels"
   ],
   "note": "Images up to 1920x1920 without further assumption; larger images (to 8191) if the grid look-ups are complete."
  },
  {
   "property": "C59",
   "status": "proved",
   "theorems": [
    "C59_simple",
    "C59_genetic"
   ],
   "note": "Whole runs of both algorithms on the parallel evaluator with the float arithmetic of the code; sort.Slice in Remove is assumed to sort; at most 32765 points per member. In the modified genetic algorithm for positive fitnesses."
  },
  {
   "property": "C60",
   "status": "proved",
   "theorems": [
    "C60_new_simple",
    "C60_simple_step",
    "C60_simple_sorts",
    "C60_simple_best",
    "C60_new_genetic",
    "C60_genetic_step",
    "C60_genetic_zero_refuted"
   ],
   "note": "Success includes termination: loops carry fuel. Refuted for the modified genetic algorithm with fitness 0: Step can panic with 'point doesn't exist'."
  },
  {
   "property": "C61",
   "status": "proved",
   "theorems": [
    "C61_triangle_pixels",
    "C61_area",
    "C61_share",
    "C61_sign",
    "C61_simple",
    "C61_genetic"
   ],
   "note": "For the cache-free fitness of every triangulation reached by Insert and Remove, and for the fitnesses stored in runs of both algorithms (which C59 shows to be that value). 1.0001 rather than 1 because C26_fitness_above_one_refuted is real."
  },
  {
   "property": "C62",
   "status": "proved",
   "theorems": [
    "C62_covers_refuted",
    "C62_one_point_refuted"
   ],
   "note": "Refuted: with one point there is no polygon at all; with three points the corners of the image on one side are in no polygon."
  },
  {
   "property": "C63",
   "status": "proved",
   "theorems": [
    "C63_cells",
    "C63_far_points",
    "C63_panic"
   ],
   "note": "Exact integer geometry against the float circumcentres."
  },
  {
   "property": "C64",
   "status": "proved",
   "theorems": [
    "C64_polygonate_refuted",
    "C64_incremental_refuted"
   ],
   "note": "Refuted: four points in a 1000x1000 image make Polygonate and IVoronoi.Insert panic. C54_panic and C63_panic say that this is the only kind of panic."
  },
  {
   "property": "C65",
   "status": "proved",
   "theorems": [
    "C65_cache_transparent",
    "C65_cache_no_panic",
    "C65_simple_run",
    "C65_genetic_run"
   ],
   "note": "run_framed: the cells of every call lie in the image; C68's invariants show that for the runs of the algorithms."
  },
  {
   "property": "C66",
   "status": "proved",
   "theorems": [
    "C66_score",
    "C66_exact_pixels",
    "C66_block_size",
    "C66_fitness_finite",
    "C66_score_refuted"
   ],
   "note": "Refuted as stated: a cell of six points in a 400x400 image has a fan triangle with a reversed line and 17441 is counted for 17442 pixels. C66_score says what is computed for every polygon (the pixel count is the sum of the line lengths), C66_exact_pixels that the claim holds if no fan triangle is degenerate. Independence of the block size and finiteness hold always."
  },
  {
   "property": "C67",
   "status": "proved",
   "theorems": [
    "C67_blank_refuted"
   ],
   "note": "Refuted: one point has no polygon and the fitness 1 on every 100x100 image."
  },
  {
   "property": "C68",
   "status": "proved",
   "theorems": [
    "C68_simple",
    "C68_genetic",
    "C68_simple_best",
    "C68_genetic_best"
   ],
   "note": "Runs as in S_PolyRun."
  },
  {
   "property": "C69",
   "status": "proved",
   "theorems": [
    "C69_new_simple",
    "C69_new_genetic",
    "C69_new_panic",
    "C69_step_panic",
    "C69_genetic_step_panic",
    "C69_cells",
    "C69_best",
    "C69_panic_refuted"
   ],
   "note": "That a run always returns is refuted; where it panics is located. The states of the modified genetic algorithm are those of runs with positive fitnesses (S_PolyRun)."
  },
  {
   "property": "C70",
   "status": "proved",
   "theorems": [
    "C70_simple",
    "C70_genetic",
    "C70_best"
   ],
   "note": "The calculation of a worker is one event; a function with state under NewOne would be a data race and is not covered."
  },
  {
   "property": "C71",
   "status": "proved",
   "theorems": [
    "C71_triangles_frozen",
    "C71_polygons_frozen",
    "C71_triangles_no_progress",
    "C71_polygons_no_progress",
    "C71_many_refuted"
   ],
   "note": "Refuted: without SetBase a function keeps the triangulation of the first points it sees and returns its fitness for ever; the fitnesses of a run of the simple algorithm over NewMany never change."
  },
  {
   "property": "C72",
   "status": "proved",
   "theorems": [
    "C72_triangulate",
    "C72_indices",
    "C72_rounding",
    "C72_renders",
    "C72_scored_is_drawn",
    "C72_drawn_is_scored",
    "C72_run",
    "C72_genetic",
    "C72_flat_refuted",
    "C72_square_refuted"
   ],
   "note": "delaunay.Triangulate is third-party code: an argument, assumed to return a Delaunay triangulation where drawn and scored triangles are compared. That every drawn triangle is scored is refuted (flat triangles at the border; four points on a circle); it is proved for triangles with no other point and no corner of the enclosing triangle in or on the circumcircle. The points agree except for a coordinate of 0.49999999999999994 pixels (C09)."
  },
  {
   "property": "C73",
   "status": "proved",
   "theorems": [
    "C73_mutate",
    "C73_mutate_some",
    "C73_mutator",
    "C73_schedule",
    "C73_new",
    "C73_step",
    "C73_runs",
    "C73_best",
    "C73_cache",
    "C73_monotone",
    "C73_picture",
    "C73_small_refuted"
   ],
   "note": "For images of 4..1920 by 4..1920 pixels and at most 32765 points. Smaller images are refuted: DefaultAlgorithm panics. Oracles: rand.Float64 in [0,1), NormFloat64 through C56 (no NaN), math.Log not NaN on [0,1), sort.Sort sorts numbers, delaunay.Triangulate returns indices of points."
  },
  {
   "property": "C74",
   "status": "proved",
   "theorems": [
    "C74_mean",
    "C74_closest",
    "C74_polygon",
    "C74_score",
    "C74_fitness",
    "C74_simple",
    "C74_genetic",
    "C74_picture",
    "C74_genetic_picture",
    "C74_default"
   ],
   "note": "The bounds of the fitness are not symmetric: the 8-bit squares of C13 are floored, which lowers the measured error by up to one 65025th per pixel and channel sum. C74_picture and C74_default assume that no four points are on a circle and no circumcircle of a drawn triangle reaches the enclosing triangle (C72 refutes equality of the triangles without that), and C72's rounds_alike."
  },
  {
   "property": "C75",
   "status": "proved",
   "theorems": [
    "C75_readable",
    "C75_lossless",
    "C75_output",
    "C75_printed",
    "C75_stats_readable",
    "C75_printed_readable",
    "C75_no_stats_file",
    "C75_no_stats_start",
    "C75_fatal_keeps",
    "C75_default_ends",
    "C75_default_goes_on",
    "C75_default_lines",
    "C75_default_file"
   ],
   "note": "Oracles: fmt's and encoding/json's texts of numbers (number characters only, different for different numbers), the result of WriteFile. If the stats file cannot be created, nothing is reported and it stays empty (C75_no_stats_file). What GenerateAlgorithmOutput prints on the console is not modelled."
  },
  {
   "property": "C76",
   "status": "proved",
   "theorems": [
    "C76_trace",
    "C76_trace_whole",
    "C76_trace_refuted",
    "C76_short_trace_refuted",
    "C76_profile",
    "C76_profile_returns"
   ],
   "note": "Refuted for traces: the buffered writer is never flushed, so the last piece of the trace is lost if it is short (C76_trace_refuted) and a trace of at most 4096 bytes as a whole. What the file has is a beginning of the trace with at most 4096 bytes missing. Profiles hold."
  },
  {
   "property": "C77",
   "status": "proved",
   "theorems": [
    "C77_compare_refuted"
   ],
   "note": "Refuted: the loop of the function is 'for false', so it returns at once and does nothing."
  },
  {
   "property": "C78",
   "status": "proved",
   "theorems": [
    "C78_gaussian",
    "C78_random",
    "C78_rate",
    "C78_default",
    "C78_spaced",
    "C78_cooling",
    "C78_pow"
   ],
   "note": "Rounding is bounded by 2^-50 (2^-50 per iteration for the spaced generator). math.Pow is an oracle within 2^-51 of x^y; C78_pow shows that there is one."
  },
  {
   "property": "C79",
   "status": "proved",
   "theorems": [
    "C79_iteration",
    "C79_generate",
    "C79_collision_refuted"
   ],
   "note": "Refuted as stated: closestTo skips points equal to the candidate, so an iteration can move a point exactly onto another one (C79_collision_refuted). True for every iteration that does not do that."
  },
  {
   "property": "C80",
   "status": "proved",
   "theorems": [
    "C80_voronoi_callback",
    "C80_voronoi_kept_refuted",
    "C80_refines",
    "C80_kept",
    "C80_set_shares",
    "C80_cache"
   ],
   "note": "Holds for IVoronoi and for the caches. Refuted for Voronoi: it hands its scratch slices to the callback, so a callback that keeps them sees later cells (C80_voronoi_kept_refuted); inside the callback they are right. Diagrams set to each other share the arrays of polygons (C80_set_shares), which no method writes to."
  },
  {
   "property": "C81",
   "status": "proved",
   "theorems": [
    "C81_score",
    "C81_fitness",
    "C81_simple",
    "C81_genetic"
   ],
   "note": "For cells whose fans contain no line and overlap little, as the statement says; C66 shows what a fan with a line counts. C81_case: five cells that cover a 100x100 image exactly once."
  },
  {
   "property": "C82",
   "status": "proved",
   "theorems": [
    "C82_cells",
    "C82_only",
    "C82_incremental",
    "C82_polygonate",
    "C82_evaluated"
   ],
   "note": "For cells that are not cut by the image; C62 refutes the claim for the others. C82_case: the cell of (50, 50) among seven points."
  },
  {
   "property": "C83",
   "status": "proved",
   "theorems": [
    "C83_whole",
    "C83_inside",
    "C83_outside",
    "C83_corners"
   ],
   "note": "Written after a wrong program (the closing side left out) broke no theorem. C83_case: a square and a point beyond its closing side."
  },
  {
   "property": "C84",
   "status": "proved",
   "theorems": [
    "C84_incremental",
    "C84_voronoi",
    "C84_polygonate",
    "C84_convex",
    "C84_sort"
   ],
   "note": "For polygons whose vertices lie in clearly different directions from the centre (margin 2^-22 on cross products). Written after a wrong program (mean divided by one more than the length) broke no theorem. C84_case: a square cell and a cut cell among five points."
  },
  {
   "property": "C85",
   "status": "proved",
   "theorems": [
    "C85_has_point",
    "C85_closest",
    "C85_agree"
   ],
   "note": "Written after a wrong program (HasPoint looks at one triangle only) broke no theorem. C85_case: answers after a history with removals, and the panic left of the image."
  },
  {
   "property": "C86",
   "status": "proved",
   "theorems": [
    "C86_refines",
    "C86_growth",
    "C86_scratch",
    "C86_apart",
    "C86_history",
    "C86_self_refuted"
   ],
   "note": "All of delaunay.go, grid.go and pointmap.go that writes, on slices with capacities (M_Mem). C86_case_tight and C86_case_spare: two triangulations with Remove and Set under two growths, different memories, same result. Set to itself is refuted with a witness (no caller does it)."
  },
  {
   "property": "C87",
   "status": "proved",
   "theorems": [
    "C87_simple",
    "C87_genetic",
    "C87_new_returns",
    "C87_step_returns",
    "C87_delaunay",
    "C87_best",
    "C87_new_genetic",
    "C87_genetic_returns",
    "C87_genetic_delaunay"
   ],
   "note": "trianglesImageFunction and parallel on the memory of M_Mem with the pointers Triangulation and Base (M_MemRun). The refinement is from value runs that do not panic to memory runs; the runs of S_Run/S_Run2 do not panic (C60), so the memory runs return. C87_example: three generations under two growths of append. The genetic theorems assume positive fitnesses, as C59 and C60 do."
  },
  {
   "property": "C88",
   "status": "proved",
   "theorems": [
    "C88_simple",
    "C88_genetic_calc",
    "C88_genetic_refuted",
    "C88_polygons",
    "C88_polygons_new"
   ],
   "note": "C88_simple needs no assumption on the image, the points or the sort: if one run returns, the other does. The genetic part is proved up to the end of calculateFitnesses and refuted for the whole Step (a tie between two mutations of one point; Best differs). C88_example: two runs with different orders of calculation in three generations."
  },
  {
   "property": "C89",
   "status": "proved",
   "theorems": [
    "C89_simple",
    "C89_simple_total",
    "C89_genetic",
    "C89_genetic_total"
   ],
   "note": "Calculate in steps on the shared evaluator (M_Fine), each reading the base and the cache array at the moment it is executed; triangle functions. C89_interleaved and C89_example: two workers taking turns through Set, Remove, Insert and the loop while a cache is being stored; C89_genetic_example for the other algorithm. The genetic theorems assume positive fitnesses, as C36_genetic does. A Remove, an Insert and the copy of one field are single steps (they write only the worker's own triangulation)."
  },
  {
   "property": "C90",
   "status": "proved",
   "theorems": [
    "C90_levels",
    "C90_areas",
    "C90_base",
    "C90_under",
    "C90_tail"
   ],
   "note": "The exponential function is bounded by integer arithmetic (1 - y <= exp(-y) <= 1/(1+y), squared 35 times), so the tables are compared with the real density. C90_exp_case and C90_log_case: functions that satisfy the premises on math.Exp and math.Log; C90_case: a word beyond the fast path, accepted with one draw and rejected with another. That equal areas and these decisions give normally distributed numbers is the theory of the ziggurat method and is not formalised (no measure theory)."
  },
  {
   "property": "C91",
   "status": "proved",
   "theorems": [
    "C91_simple",
    "C91_simple_total",
    "C91_simple_arrays",
    "C91_genetic",
    "C91_genetic_total",
    "C91_genetic_arrays"
   ],
   "note": "C89 and C36 for the polygon functions (M_PFine), for the runs of C69 and C68. C91_interleaved, C91_example, C91_genetic_example: workers taking turns; C91_usual: the hypotheses together; C91_arrays_case: function 0 reads one array while a result is written into the other. The genetic theorems assume positive fitnesses."
  },
  {
   "property": "C92",
   "status": "proved",
   "theorems": [
    "C92_simple",
    "C92_new_simple_total",
    "C92_simple_total",
    "C92_simple_best",
    "C92_genetic",
    "C92_new_genetic_total",
    "C92_genetic_total"
   ],
   "note": "Triangle functions (M_FineRun); the polygon functions are C93. C92_case: three states of simple reached with interleaved workers; C92_genetic_case: a Step of modifiedGenetic in which the workers take turns and a mutation is noted. Comparing the fitness and setBeneficial are joined to the last assignment of Update. The genetic runs assume positive fitnesses, as C36_genetic does (without: C60_genetic_zero_refuted)."
  },
  {
   "property": "C93",
   "status": "proved",
   "theorems": [
    "C93_simple",
    "C93_cells",
    "C93_new",
    "C93_step",
    "C93_best",
    "C93_genetic",
    "C93_genetic_step"
   ],
   "note": "C92 for the polygon functions (M_PFineRun), for the runs of C69 and C68. That a step may panic is C69_panic_refuted. C93_case, C93_genetic_case: two generations with the workers taking turns; C93_new_case: the hypotheses of C93_new together. The genetic runs assume positive fitnesses."
  },
  {
   "property": "C94",
   "status": "proved",
   "theorems": [
    "C94_simple_calc",
    "C94_simple",
    "C94_genetic_calc",
    "C94_genetic",
    "C94_polygons",
    "C94_polygons_genetic",
    "C94_interleaving_decides_refuted"
   ],
   "note": "Together with C92 and C93. The last theorem transfers C88_genetic_refuted to interleaved steps: that the interleaving does not matter to modifiedGenetic is false. C94_polygons_case: the run of C69_case is interleaved. The genetic runs assume positive fitnesses."
  },
  {
   "property": "C95",
   "status": "proved",
   "theorems": [
    "C95_no_cycles",
    "C95_no_cycles_first",
    "C95_transitive_refuted",
    "C95_panic_order_refuted"
   ],
   "note": "Transitivity is false: C95_transitive_refuted gives the vertices; C95_panic_order_refuted gives two orders of the same three vertices, one of which the first sort (as modelled by slice_sort) sorts while it panics on the other. C84 and C85 assume clearly different directions, for which the comparison is transitive. C95_case: three vertices around (50, 50)."
  },
  {
   "property": "C96",
   "status": "proved",
   "theorems": [
    "C96_simple",
    "C96_genetic",
    "C96_shared_refuted"
   ],
   "note": "That newPointGroup may return any group is false: C96_shared_refuted returns the same group twice. Slices that overlap without being equal are not modelled. C96_case: the Steps of the refutation with two of three arrays."
  },
  {
   "property": "C97",
   "status": "proved",
   "theorems": [
    "C97_simple",
    "C97_genetic",
    "C97_simple_sharp",
    "C97_genetic_sharp"
   ],
   "note": "For every evaluator, mutation method, valid order of events and sequence of swaps. The _sharp theorems are runs with one member more, whose Best is new. For size <= cutoff NewModifiedGenetic does not return in the model (g_calc), so C97_genetic says something only for cutoff < size <= 2*cutoff; cutoff 0 is C30_cutoff_zero_hangs. C97_case: two Steps of both algorithms at the bounds return."
  },
  {
   "property": "C98",
   "status": "proved",
   "theorems": [
    "C98_simple",
    "C98_genetic",
    "C98_group_refuted"
   ],
   "note": "For every evaluator, mutation method, order of events and sequence of swaps; the caller is any function of the points of Best that keeps their number. The same for the groups newPointGroup returned is false: C98_group_refuted. Writing while a Step runs is a data race and not modelled. C98_case and C98_shortened_case are runs."
  },
  {
   "property": "C99",
   "status": "proved",
   "theorems": [
    "C99_simple",
    "C99_genetic",
    "C99_polygons",
    "C99_polygons_genetic",
    "C99_best_fitness",
    "C99_ties_refuted"
   ],
   "note": "For every mutation method, schedule and pair of swap sequences; no_ties is asked of one run only, of the other only that it is sorted. Without it the statement is false: C99_ties_refuted. C99_best_fitness holds with ties, for every evaluator, but only for one sort. C99_case: two runs of one Step with different swaps."
  }
 ]
}