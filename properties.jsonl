{"id": "C01", "title": "Shoebox image count matches the closed form", "statement": "Running the image source model in a shoebox room with maximum order n reports exactly 1+2n(n+1) images in 2D and 1+2n(2n^2+3n+4)/3 images in 3D, and the writes of the enumeration loop never leave the array that was allocated with that size.", "quantifier": "every non-negative maximum order n, every dimension (2 and 3)", "why_tests_cant": "tests run a handful of small orders; the equality of the loop trip count and the allocation size must hold for every order, otherwise a larger order writes out of bounds", "anchors": ["pyroomacoustics/libroom_src/room.cpp:number_image_sources_2", "pyroomacoustics/libroom_src/room.cpp:number_image_sources_3", "pyroomacoustics/libroom_src/room.cpp:image_source_shoebox"]}
{"id": "C02", "title": "Shoebox images are exactly the L1 ball, each once, with the right order", "statement": "The images reported for a shoebox with maximum order n are in bijection with the integer lattice points of L1 norm at most n: each lattice point occurs exactly once and the reported order of the image is its L1 norm.", "quantifier": "every maximum order, every lattice point, both dimensions", "why_tests_cant": "a missed or duplicated image at some order/sign combination is only visible when that order is enumerated; orders are unbounded", "anchors": ["pyroomacoustics/libroom_src/room.cpp:image_source_shoebox"]}
{"id": "C03", "title": "Shoebox image positions are iterated mirror images", "statement": "Every reported image position is what one obtains from the true source by successively mirroring it across the room's parallel walls, alternating between the two walls of each axis, as many times as the reported per-axis reflection count says (the last mirror being the far wall for positive counts and the near wall for negative counts).", "quantifier": "every room size, source position, lattice point of any magnitude", "why_tests_cant": "position formula uses parity/sign case analysis whose error could appear only for particular large indices", "anchors": ["pyroomacoustics/libroom_src/room.cpp:image_source_shoebox"]}
{"id": "C04", "title": "Shoebox attenuation counts each wall's hits", "statement": "The amplitude factor of an image equals the product, over all walls, of that wall's amplitude reflection factor raised to the number of times that wall occurs in the image's mirror sequence, which is also the number of translates of that wall crossed by the straight segment from the microphone to the image; every power index read from the precomputed table is within the table.", "quantifier": "every lattice point, every absorption (and scattering) coefficients, every number of bands and maximum order", "why_tests_cant": "depends on truncating integer division of possibly negative indices; only an argument over all integers settles it", "anchors": ["pyroomacoustics/libroom_src/room.cpp:image_source_shoebox"]}
{"id": "C05", "title": "Shoebox departure direction is the folded path's first leg", "statement": "The departure direction reported for an image and a microphone is the unit vector from the true source towards the microphone mirrored back through the same reflections that created the image, i.e. the initial direction of the reflected path.", "quantifier": "every room size, source, microphone, lattice point", "why_tests_cant": "sign flips per axis parity; tests check single configurations", "anchors": ["pyroomacoustics/libroom_src/room.cpp:image_source_shoebox"]}
{"id": "C06", "title": "Shoebox model is passive and monotone", "statement": "With absorption (and scattering) coefficients in [0,1], every image amplitude lies in [0,1], increasing the absorption of any wall never increases any amplitude, and the images reported for order n are all reported again, unchanged, for any larger order.", "quantifier": "all absorption/scattering matrices, all orders n <= m, all images", "why_tests_cant": "ranges over pairs of rooms and of orders", "anchors": ["pyroomacoustics/libroom_src/room.cpp:image_source_shoebox"]}
{"id": "C07", "title": "General image source model reports only genuine image chains", "statement": "In a room given by walls, every reported image was generated by a sequence of at most max_order walls: its position is the iterated mirror image of the source across those walls in order, each mirrored point lay strictly on the inner side of the wall it was mirrored across, its order is the length of the sequence, its generating wall is the last wall, and its amplitude is the product of the walls' reflection factors (times sqrt(1-scattering) for scattering walls in hybrid mode).", "quantifier": "every list of walls (any shape), source, microphones, maximum order", "why_tests_cant": "recursive search over an unbounded tree with reused mutable node objects", "anchors": ["pyroomacoustics/libroom_src/room.cpp:image_sources_dfs", "pyroomacoustics/libroom_src/room.cpp:fill_sources"]}
{"id": "C08", "title": "General image source model misses nothing and repeats nothing", "statement": "The list returned by the general image source model is exactly the list of admissible wall sequences of length at most max_order (in depth-first order) whose image is visible from at least one microphone, each listed once, with all per-image arrays (position, order, wall, attenuation, visibility) aligned.", "quantifier": "every list of walls, source, microphones, maximum order", "why_tests_cant": "completeness of a recursive search cannot be established by sampling", "anchors": ["pyroomacoustics/libroom_src/room.cpp:image_sources_dfs", "pyroomacoustics/libroom_src/room.cpp:fill_sources", "pyroomacoustics/libroom_src/room.cpp:image_source_model"]}
{"id": "C09", "title": "Visible images come with a real reflected path", "statement": "If an image is reported visible from a microphone, then there are points on the walls of its wall sequence such that the polyline source, wall points, microphone obeys the mirror law at each wall and its total length equals the straight distance from the image to the microphone (exactly when no point of it is beyond the wall of its next reflection, otherwise, in 3D, up to the factor (1+2 eps) per reflection that the geometric tolerance allows); the reported departure direction points along its first leg.", "quantifier": "every list of walls, source, microphone, wall sequence", "why_tests_cant": "existential statement over geometric paths of any length", "anchors": ["pyroomacoustics/libroom_src/room.cpp:is_visible_dfs", "pyroomacoustics/libroom_src/room.cpp:is_obstructed_dfs"]}
{"id": "C10", "title": "Wall mirror is an isometric involution and its code tells the side", "statement": "Mirroring a point across a wall twice gives the point back, mirroring preserves all distances, exactly the points of the wall's plane are fixed, the midpoint lies in the plane, and the returned code is +1, -1 or 0 according to the signed distance to the plane exceeding eps on the inner side, on the outer side, or neither; side() of the mirrored point is the opposite of side() of the point.", "quantifier": "every plane with unit normal, every point (2D and 3D)", "why_tests_cant": "continuum of inputs", "anchors": ["pyroomacoustics/libroom_src/wall.cpp:reflect", "pyroomacoustics/libroom_src/wall.cpp:side"]}
{"id": "C11", "title": "Specular reflection of a direction preserves length and is its own inverse", "statement": "Reflecting an incident direction at a wall preserves its length, reverses exactly its normal component, and applying it twice returns the incident direction; the two-point variant returns a point at exactly the requested distance from the hit point, whenever start and hit point differ.", "quantifier": "every unit normal and incident vector, every requested length", "why_tests_cant": "continuum of inputs", "anchors": ["pyroomacoustics/libroom_src/wall.cpp:normal_reflect"]}
{"id": "C12", "title": "Orientation predicate and intersection test are symmetric", "statement": "The orientation of three points is invariant under cyclic permutation and negated by swapping two of them; the 2D segment intersection test gives the same verdict when either segment is reversed, and exchanging the two segments exchanges the two endpoint flags.", "quantifier": "all triples / quadruples of points, any positive tolerance eps", "why_tests_cant": "universally quantified geometric identity with tolerance", "anchors": ["pyroomacoustics/libroom_src/geometry.cpp:ccw3p", "pyroomacoustics/libroom_src/geometry.cpp:check_intersection_2d_segments"]}
{"id": "C13", "title": "2D segment intersection returns the common point", "statement": "When the 2D segment intersection function reports an intersection, the returned point lies on both supporting lines, and on the segments when the orientation tests were decided strictly; when segments are disjoint from each other's lines strictly it reports none.", "quantifier": "all pairs of 2D segments", "why_tests_cant": "continuum of inputs", "anchors": ["pyroomacoustics/libroom_src/geometry.cpp:intersection_2d_segments"]}
{"id": "C14", "title": "Segment/plane intersection returns a point of the plane and segment", "statement": "When the 3D segment/plane intersection function reports an intersection, the returned point lies exactly in the plane and on the segment extended by at most eps of its length on either side; it reports an endpoint exactly when the crossing is within eps of an endpoint; if both endpoints are strictly on the same side of the plane (beyond tolerance) it reports none.", "quantifier": "all segments and planes", "why_tests_cant": "continuum of inputs", "anchors": ["pyroomacoustics/libroom_src/geometry.cpp:intersection_3d_segment_plane"]}
{"id": "C15", "title": "Signed polygon area laws", "statement": "The signed area returned for a polygon is the shoelace area, changes sign when the vertex order is reversed, is unchanged by translating the polygon and by starting the vertex list elsewhere, and scales quadratically.", "quantifier": "polygons with any number of vertices", "why_tests_cant": "unbounded number of vertices", "anchors": ["pyroomacoustics/libroom_src/geometry.cpp:area_2d_polygon"]}
{"id": "C16", "title": "Point-in-polygon decides rectangles and convex polygons correctly", "statement": "The point-in-polygon test reports points on an edge as boundary; for a convex counter-clockwise polygon with any number of vertices every point left of all edges is reported inside and every point right of some edge is reported outside, provided the point is not within the tolerance band (twice the triangle area below eps) of any edge line; so for axis-parallel rectangles, as used for shoebox walls, the answer is exact outside the band.", "quantifier": "all convex polygons of any vertex count, all points outside the tolerance band", "why_tests_cant": "the winding number argument is an induction over the vertex list", "anchors": ["pyroomacoustics/libroom_src/geometry.cpp:is_inside_2d_polygon", "pyroomacoustics/libroom_src/geometry.cpp:is_left", "pyroomacoustics/libroom_src/geometry.cpp:on_segment"]}
{"id": "C17", "title": "The ray length bound exceeds every wall-to-wall distance", "statement": "The maximum travel distance computed for a room is strictly larger than the distance between any two points of the convex hull of the wall corners.", "quantifier": "every room with any number of walls and corners", "why_tests_cant": "ranges over all rooms", "anchors": ["pyroomacoustics/libroom_src/room.cpp:get_max_distance"]}
{"id": "C18", "title": "Next wall hit of a ray is the nearest wall in front", "statement": "In a general room the next wall hit reported for a ray is an intersection of the ray with the reported wall, farther than eps from the start, and no other wall is intersected at a distance larger than eps but smaller than the reported one; if none is reported, no wall is intersected at a distance between eps and the bound.", "quantifier": "every wall list, every ray", "why_tests_cant": "minimum over an unbounded list with exclusion threshold", "anchors": ["pyroomacoustics/libroom_src/room.cpp:next_wall_hit"]}
{"id": "C19", "title": "Shoebox ray leaves through the reported face", "statement": "In a shoebox, for a ray starting inside the box, the reported hit point lies on the ray and on a face of the box (within eps in the other coordinates), the ray stays in the (eps-enlarged) box up to the hit, the reported distance is the Euclidean distance; and a hit is always found for a ray starting at least eps away from every face. The reported wall index is that of the face hit (this last claim fails in 2D).", "quantifier": "every room size, start point, direction", "why_tests_cant": "continuum of inputs", "anchors": ["pyroomacoustics/libroom_src/room.cpp:next_wall_hit", "pyroomacoustics/libroom_src/room.cpp:make_shoebox_walls"]}
{"id": "C20", "title": "Energy histogram is the exact log of what was put in", "statement": "After any sequence of logging operations (single cells, columns, rows), at arbitrary and growing indices, every cell of the energy histogram holds the sum of the values logged to it, its hit counter the number of those logs, and the reported mean is their quotient (0 if none); growing the table never loses or moves entries and reset gives back the empty log.", "quantifier": "every sequence of log operations of any length, any indices, any initial size", "why_tests_cant": "history property over unbounded operation sequences with internal reallocation", "anchors": ["pyroomacoustics/libroom_src/common.hpp:Histogram2D", "pyroomacoustics/libroom_src/common.hpp:get_new_size"]}
{"id": "C21", "title": "Histogram growth terminates and covers the index", "statement": "The table growth rule returns a size strictly larger than the requested index by repeated doubling of a positive current size, less than or equal to twice what is needed; it never returns when the current size is zero.", "quantifier": "every current size and index", "why_tests_cant": "termination over all inputs", "anchors": ["pyroomacoustics/libroom_src/common.hpp:get_new_size"]}
{"id": "C22", "title": "A traced ray terminates and never gains energy", "statement": "Tracing one ray performs finitely many wall hits (at most the distance threshold divided by the tolerance, plus one), its transmitted energy in each band is non-increasing along the ray and equals the initial energy times the product of (1-absorption) of the walls hit, and travelled distance is the sum of the hop lengths.", "quantifier": "every room, source, initial direction and scattering outcome (random choices), absorption in [0,1]", "why_tests_cant": "while(true) loop with random directions: termination and energy balance for every execution", "anchors": ["pyroomacoustics/libroom_src/room.cpp:simul_ray"]}
{"id": "C23", "title": "Ray tracing logs only physically possible arrivals", "statement": "Every histogram entry produced by tracing a specular ray is within the microphone radius of the ray segment, is logged at the ray's travelled distance, with non-negative energy not exceeding transmitted energy divided by (r^2 times hit probability); in hybrid mode no specular arrival is logged before the ray made at least ism_order bounces.", "quantifier": "every room, ray, microphone set", "why_tests_cant": "execution property of an unbounded loop", "anchors": ["pyroomacoustics/libroom_src/room.cpp:simul_ray", "pyroomacoustics/libroom_src/room.cpp:scat_ray"]}
{"id": "C24", "title": "RIR builder never writes or reads out of bounds", "statement": "Whenever the impulse response builder accepts its inputs (lengths agree, odd filter length, extreme delays fit), every index it uses into the output, the per-thread buffers, the window and the sinc lookup table (including the right neighbour used by linear interpolation) is inside the respective array.", "quantifier": "all delay arrays of any length, all filter lengths, table granularities >= 1, thread counts >= 1", "why_tests_cant": "memory safety for every accepted input", "anchors": ["pyroomacoustics/libroom_src/rir_builder.cpp:threaded_rir_builder_impl"]}
{"id": "C25", "title": "RIR builder result does not depend on threads", "statement": "In exact arithmetic, the impulse response produced with any number of threads and any interleaving of the worker tasks equals the sequential sum of one windowed-sinc pulse per image source added to the initial content; every image source contributes exactly once.", "quantifier": "all thread counts >= 1, all schedules, all inputs", "why_tests_cant": "all interleavings and all block partitions", "anchors": ["pyroomacoustics/libroom_src/rir_builder.cpp:threaded_rir_builder_impl", "pyroomacoustics/libroom_src/threadpool.hpp:ThreadPool"]}
{"id": "C26", "title": "Thread pool runs every accepted task exactly once", "statement": "Under every interleaving of enqueues, worker steps and the destructor, each task accepted before shutdown is executed exactly once, tasks start in FIFO order, none is executed after the pool's destructor has returned, and no worker can stay blocked forever once shutdown was requested and the queue is empty.", "quantifier": "all schedules, all numbers of workers and tasks", "why_tests_cant": "schedule-quantified", "anchors": ["pyroomacoustics/libroom_src/threadpool.hpp:ThreadPool", "pyroomacoustics/libroom_src/threadpool.hpp:enqueue"]}
{"id": "C27", "title": "delay_sum is overlap-add", "statement": "Whenever delay_sum accepts its inputs, all its accesses are in bounds and the output equals the initial content plus the sum of every impulse response shifted by its integer delay, for any thread count.", "quantifier": "all numbers of filters, taps, delays, thread counts", "why_tests_cant": "all inputs and partitions", "anchors": ["pyroomacoustics/libroom_src/rir_builder.cpp:threaded_delay_sum_impl"]}
{"id": "C28", "title": "ISM always sizes the RIR so that the builder accepts it", "statement": "For any set of image sources at non-negative distances, the delays (shifted by half the fractional delay filter) and the RIR length computed by the image source RIR stage satisfy the builder's acceptance checks, so the builder does not reject a simulated room; and no pulse is truncated.", "quantifier": "all non-empty arrays of distances, positive fs and speed of sound, odd filter length", "why_tests_cant": "rounding (floor/ceil) inequality for all reals", "anchors": ["pyroomacoustics/simulation/ism.py:compute_ism_rir", "pyroomacoustics/libroom_src/rir_builder.cpp:threaded_rir_builder_impl"]}
{"id": "C29", "title": "Simulated microphone signals have room for every convolution", "statement": "In simulate(), the microphone signal is the sum over sources of (delay-shifted signal convolved with the RIR) plus the requested noise; the per-source premix buffers are long enough for every source's delayed convolution with every microphone's RIR, and their length is the least even number not below (longest RIR) + (latest end of a source signal) - 1. Sources without a signal do not contribute.", "quantifier": "all numbers of sources/microphones, all signal lengths, RIR lengths and delays", "why_tests_cant": "max over all combinations, off-by-one in slice bounds", "anchors": ["pyroomacoustics/room.py:simulate"]}
{"id": "C30", "title": "compute_rir reflects the current configuration", "statement": "After any sequence of calls that places sources and microphones before the first computation, compute_rir yields one RIR per microphone and source for the configuration current at the time of the call, whatever air absorption or (without ray tracing) sound speed changes and computations came in between; with ray tracing the options and the speed must be set before the microphones are placed. Outside these orders (switching air absorption off, placing sources or changing options after a computation) the cached data are stale.", "quantifier": "all sequences of configuration and compute calls", "why_tests_cant": "history-quantified", "anchors": ["pyroomacoustics/room.py:compute_rir", "pyroomacoustics/room.py:image_source_model", "pyroomacoustics/room.py:ray_tracing", "pyroomacoustics/room.py:unset_air_absorption", "pyroomacoustics/room.py:simulate"]}
{"id": "C31", "title": "Simulator state flags stay consistent", "statement": "After any sequence of configuration and computation calls other than extrude, the engine's sound speed, ray tracing options, hybrid flag and microphone positions are those of the room, the room's settings are those asked for, and responses are marked done exactly when they exist. Extruding loses the engine's microphones.", "quantifier": "all call sequences", "why_tests_cant": "history-quantified", "anchors": ["pyroomacoustics/room.py:Room", "pyroomacoustics/room.py:add_microphone_array", "pyroomacoustics/room.py:_update_room_engine_params"]}
{"id": "C32", "title": "from_corners keeps materials with their walls", "statement": "Building a 2D room from a list of corners in counter-clockwise order gives one wall per corner, wall i joining corner i to corner i+1 with material i and its normal pointing to the right of that edge; the stored corners are counter-clockwise whatever the order given. For a clockwise list the walls are the reversed list's while the materials are not reversed, so material i ends up on the wall between corners n-1-i and n-2-i.", "quantifier": "all corner lists, all material lists", "why_tests_cant": "needs both orientations and any number of corners", "anchors": ["pyroomacoustics/room.py:from_corners"]}
{"id": "C33", "title": "Extruding a polygon gives a closed room with the right walls and volume", "statement": "Extruding a 2D room of n walls to height h yields n+2 walls; each side wall has the area edge length times h, floor and ceiling have the area of the polygon, and the volume computed from the walls is polygon area times h; in a shoebox get_volume is the product of the dimensions.", "quantifier": "all polygons, all heights", "why_tests_cant": "unbounded number of corners", "anchors": ["pyroomacoustics/room.py:extrude", "pyroomacoustics/room.py:get_volume", "pyroomacoustics/room.py:wall_area"]}
{"id": "C34", "title": "ShoeBox point membership is the closed box", "statement": "For a shoebox, is_inside(p) is true exactly when p is in the closed box between the origin and the room dimensions, for every point with as many coordinates as the room; a single number is compared with every dimension.", "quantifier": "all dimensions, all points", "why_tests_cant": "continuum", "anchors": ["pyroomacoustics/room.py:ShoeBox.is_inside"]}
{"id": "C35", "title": "Streaming STFT analysis is independent of chunking", "statement": "Feeding a signal to streaming analysis in any split into blocks whose lengths are multiples of the hop yields the same sequence of frames as feeding it at once; the k-th frame is the windowed, zero-padded DFT of samples k*hop-(N-hop) .. k*hop+hop of the signal preceded by zeros; a last block of any length is completed with zeros. Without streaming, frame k holds samples k*hop .. k*hop+N and just enough frames are made to cover the signal.", "quantifier": "all signals, all splits, all N >= hop, all zero paddings", "why_tests_cant": "history over unbounded chunk sequences", "anchors": ["pyroomacoustics/transform/stft.py:STFT.analysis", "pyroomacoustics/transform/stft.py:STFT._analysis_streaming", "pyroomacoustics/transform/stft.py:STFT._analysis_single"]}
{"id": "C36", "title": "Streaming STFT synthesis is overlap-add", "statement": "Over any sequence of synthesised frames, the concatenation of the outputs is the overlap-add of the (windowed) inverse transforms at hop spacing, whatever the frame split across calls.", "quantifier": "all frame sequences, all hop <= nfft", "why_tests_cant": "history property", "anchors": ["pyroomacoustics/transform/stft.py:STFT.synthesis", "pyroomacoustics/transform/stft.py:STFT._overlap_and_add"]}
{"id": "C37", "title": "STFT analysis followed by synthesis reconstructs the signal", "statement": "If analysis and synthesis windows satisfy sum over hops of wa*ws = 1, the streaming analysis+synthesis chain returns the input delayed by exactly N-hop (plus the front padding) samples, for every split into blocks; without streaming, every sample at N-hop or later covered by all its frames is returned exactly.", "quantifier": "all signals of any length, all N, hop dividing or not dividing N", "why_tests_cant": "unbounded signals; exact latency", "anchors": ["pyroomacoustics/transform/stft.py:STFT", "pyroomacoustics/transform/dft.py:DFT"]}
{"id": "C38", "title": "compute_synthesis_window gives perfect reconstruction", "statement": "The synthesis window returned for an analysis window satisfies sum over hops of wa*ws = 1 at every sample position; it is finite exactly when on every residue class modulo the hop the analysis window has a non-zero sample.", "quantifier": "all windows, all hops >= 1", "why_tests_cant": "all window shapes and hops", "anchors": ["pyroomacoustics/transform/stft.py:compute_synthesis_window"]}
{"id": "C39", "title": "STFT changes of padding keep the transform usable", "statement": "After any sequence of zero_pad_front/zero_pad_back/reset/set_filter calls asking at most once for each kind of padding, both window lengths equal the transform length (asking twice for the same padding makes the windows too long and every later analysis raises).", "quantifier": "all call sequences", "why_tests_cant": "history-quantified", "anchors": ["pyroomacoustics/transform/stft.py:STFT.zero_pad_front", "pyroomacoustics/transform/stft.py:STFT.zero_pad_back"]}
{"id": "C40", "title": "DFT objects do not modify the caller's data", "statement": "DFT.analysis without a window, and STFT.process with a fixed number of frames, leave the caller's data unchanged; DFT.analysis with a window multiplies the caller's array by the window, and STFT.process with inferred frames filters the caller's array.", "quantifier": "all signals and windows", "why_tests_cant": "aliasing property", "anchors": ["pyroomacoustics/transform/dft.py:DFT.analysis"]}
{"id": "C41", "title": "Adaptive buffer is a stack of recent samples", "statement": "After any sequence of push and flush operations on the buffer, top(n) returns the n most recent pushed samples newest first, size is the number of stored samples, and flush(n) for 1 <= n <= size drops exactly the n oldest ones; internal growth is invisible.", "quantifier": "all operation sequences", "why_tests_cant": "history over reallocation", "anchors": ["pyroomacoustics/adaptive/data_structures.py:Buffer"]}
{"id": "C42", "title": "Powers table always returns the power", "statement": "Indexing the powers object at any non-negative integer, ascending range or non-empty list returns the powers asked for after any history of earlier accesses; a descending range is answered from the table as it stands, so only from below its initial length.", "quantifier": "all sequences of accesses, all k", "why_tests_cant": "history, cache growth", "anchors": ["pyroomacoustics/adaptive/data_structures.py:Powers"]}
{"id": "C43", "title": "Coin flipper hands out every flip at most once", "statement": "Over any sequence of requests, each request of n returns n flips drawn from the generated random stream and no draw is handed out twice.", "quantifier": "all request sequences", "why_tests_cant": "history", "anchors": ["pyroomacoustics/adaptive/data_structures.py:CoinFlipper"]}
{"id": "C44", "title": "NLMS never moves away from the true system", "statement": "For a noise-free reference d = <w0,x> the squared distance of the NLMS weights to w0 is non-increasing at every update for 0 <= mu <= 2, strictly decreasing when 0 < mu < 2 and the error is non-zero, and the a-posteriori error is (1-mu) times the a-priori one.", "quantifier": "all input sequences, filter lengths, step sizes", "why_tests_cant": "Lyapunov argument over all sequences", "anchors": ["pyroomacoustics/adaptive/lms.py:NLMS", "pyroomacoustics/adaptive/adaptive_filter.py:AdaptiveFilter"]}
{"id": "C45", "title": "Block LMS adds the corrections of a block; with block size one it is NLMS", "statement": "For every block size and stream, the block LMS weights change once per complete block, by mu times the sum of the (normalised) corrections of the block's windows evaluated at the weights before the block; with L=1 and normalisation the weights are those of NLMS.", "quantifier": "all histories, lengths >= 2", "why_tests_cant": "history equivalence", "anchors": ["pyroomacoustics/adaptive/lms.py:BlockLMS"]}
{"id": "C46", "title": "RLS maintains the inverse correlation and the least-squares solution", "statement": "After any number of updates the RLS state satisfies P * Phi = I with Phi the exponentially weighted, regularised correlation matrix, and the weights satisfy the normal equations Phi w = z, so they are the only minimiser of the weighted squared error; BlockRLS has the same state at the end of every block.", "quantifier": "all input histories, lengths, forgetting factors", "why_tests_cant": "matrix induction over histories", "anchors": ["pyroomacoustics/adaptive/rls.py:RLS"]}
{"id": "C47", "title": "Toeplitz and Hankel fast products equal the matrix products", "statement": "The FFT-based Toeplitz/Hankel multiplications return the product of the full matrix with the operand (an operand of the wrong height is rejected by the Toeplitz product, extra rows are ignored by the Hankel product); the FFT-based autocorrelation returns the lag products divided by the length minus one.", "quantifier": "all non-empty sizes and contents (given a correct FFT)", "why_tests_cant": "all sizes", "anchors": ["pyroomacoustics/adaptive/util.py:toeplitz_multiplication", "pyroomacoustics/adaptive/util.py:hankel_multiplication"]}
{"id": "C48", "title": "Circulant approximations", "statement": "The optimal circulant approximation of a symmetric Toeplitz matrix is the unique minimiser of the Frobenius distance among circulant matrices; both approximations are symmetric, and Strang's keeps the central diagonals (sizes from 2).", "quantifier": "all sizes and matrices", "why_tests_cant": "optimality over all circulants", "anchors": ["pyroomacoustics/adaptive/util.py:toeplitz_opt_circ_approx", "pyroomacoustics/adaptive/util.py:toeplitz_strang_circ_approx"]}
{"id": "C49", "title": "Mel scale conversions are mutually inverse and monotone", "statement": "Converting frequency to mel and back (and vice versa) is the identity and the conversion is strictly increasing.", "quantifier": "all non-negative frequencies", "why_tests_cant": "continuum", "anchors": ["pyroomacoustics/acoustics.py:melscale", "pyroomacoustics/acoustics.py:invmelscale"]}
{"id": "C50", "title": "Sabine inversion round-trip", "statement": "For a 3D shoebox, computing absorption from a target RT60 and feeding it back to the Sabine formula (without air absorption) returns the target; infeasible targets are rejected exactly when the absorption would exceed one. For a 2D rectangle the returned image order reaches every image of the room closer than sound travels in the target time. (In 2D the round trip gives twice the target, and in 3D the returned order misses diagonal images.)", "quantifier": "all room sizes, targets, sound speeds", "why_tests_cant": "continuum; bound over all images", "anchors": ["pyroomacoustics/acoustics.py:inverse_sabine", "pyroomacoustics/acoustics.py:rt60_sabine"]}
{"id": "C51", "title": "Reverberation formulas are ordered and monotone", "statement": "Without air absorption Eyring's RT60 is below Sabine's for the same room, and both decrease when absorption increases. (With air absorption the Eyring formula has the wrong sign.)", "quantifier": "all volumes, surfaces, absorption in (0,1)", "why_tests_cant": "continuum", "anchors": ["pyroomacoustics/acoustics.py:rt60_eyring", "pyroomacoustics/acoustics.py:rt60_sabine"]}
{"id": "C52", "title": "Octave bands tile the spectrum", "statement": "Adjacent octave bands share their common edge, centres double every octave, each centre is the geometric mean of its band's edges and lies inside it; n octaves are n bands or 3n-2 third octaves; the filter banks take as many octaves as keep the highest centre at or below half the sampling frequency.", "quantifier": "all start frequencies, fractions, counts", "why_tests_cant": "all counts", "anchors": ["pyroomacoustics/acoustics.py:octave_bands"]}
{"id": "C53", "title": "Antoni filter bank is energy preserving", "statement": "At every frequency bin the squared magnitudes of all band filters sum to at least one, and to exactly one if the transition at each band edge ends before the next one begins: without overlap always, with overlap up to one half when the second octave band's centre is at bin 36 or above, and for the default bank at 16 kHz with 1024 points or more. (With the default 512 points it exceeds one at bin 7.)", "quantifier": "all bins, overlaps, centre sequences", "why_tests_cant": "continuum", "anchors": ["pyroomacoustics/acoustics.py:antoni_magnitude_octave_filter_response"]}
{"id": "C54", "title": "Cosine octave filter bank sums to one", "statement": "With keep_dc, at every frequency bin the magnitudes of all cosine band filters sum to one; without it (the default) they sum to one from the first centre up and vanish at frequency zero.", "quantifier": "all bins and centres", "why_tests_cant": "continuum", "anchors": ["pyroomacoustics/acoustics.py:cosine_magnitude_octave_filter_response"]}
{"id": "C55", "title": "Physics from a speed gives back the speed", "statement": "A physics object built from a sound speed reports that sound speed; one built without a temperature reports the package's speed of sound; humidities are accepted exactly between 0 and 100; a package constant reads as the value last set.", "quantifier": "all speeds", "why_tests_cant": "continuum", "anchors": ["pyroomacoustics/parameters.py:Physics.from_speed", "pyroomacoustics/parameters.py:calculate_speed_of_sound"]}
{"id": "C56", "title": "Air absorption lookup always finds an entry", "statement": "For every temperature and humidity, the air absorption lookup selects an existing table entry, the one whose heading covers them, with one positive coefficient per centre frequency, not decreasing with frequency.", "quantifier": "all real temperatures and humidities", "why_tests_cant": "branch coverage over the continuum", "anchors": ["pyroomacoustics/parameters.py:Physics.get_air_absorption"]}
{"id": "C57", "title": "Materials stay rectangular", "statement": "After making a list of materials compatible, all have the same number of coefficients for absorption and scattering; however material objects are shared between walls; it succeeds if coefficients come with as many positive distinct frequencies; with flat coefficients in [0,1], frequency-flat materials keep their value in every band and repeating the operation changes nothing; coefficients given at a band centre are kept, others are interpolated without leaving the range of the given values and clipped to [0,1].", "quantifier": "all lists of materials", "why_tests_cant": "all list lengths", "anchors": ["pyroomacoustics/parameters.py:Material", "pyroomacoustics/parameters.py:make_materials", "pyroomacoustics/parameters.py:Material.all_flat"]}
{"id": "C58", "title": "Convolution matrix multiplies as convolution", "statement": "Multiplying the convolution matrix of x with n columns by a vector gives the full convolution of x with the vector.", "quantifier": "all vectors and sizes", "why_tests_cant": "all sizes", "anchors": ["pyroomacoustics/utilities.py:convmtx"]}
{"id": "C59", "title": "Levinson recursion solves the Toeplitz system", "statement": "For a real symmetric Toeplitz system the Levinson routine returns the exact solution whenever it returns one, and it does for every positive definite system and, more generally, whenever every leading principal submatrix is regular. For a complex first row r it solves the system with conj(r) in the first row (not with r as documented).", "quantifier": "all sizes and right-hand sides", "why_tests_cant": "induction on size", "anchors": ["pyroomacoustics/utilities.py:levinson"]}
{"id": "C60", "title": "Goertzel computes the DFT coefficient", "statement": "Goertzel's recursion returns the DFT coefficient of the signal at the requested bin.", "quantifier": "all signal lengths and bins", "why_tests_cant": "induction over recurrence", "anchors": ["pyroomacoustics/utilities.py:goertzel"]}
{"id": "C61", "title": "Integer/float conversions stay in range", "statement": "Converting floats in [-1,1] to 16 bit never overflows, clip keeps values inside the bounds and leaves inside values unchanged, normalisation of a signal that is not silent makes the maximum exactly the target; converting int16 to float and back moves every non-zero sample one unit towards zero. (Unsigned data cannot be converted to float, a silent signal cannot be normalised.)", "quantifier": "all sample values", "why_tests_cant": "all integers / reals", "anchors": ["pyroomacoustics/utilities.py:to_16b", "pyroomacoustics/utilities.py:to_float32", "pyroomacoustics/utilities.py:clip", "pyroomacoustics/utilities.py:normalize"]}
{"id": "C62", "title": "Fractional delay filter bank stays in its table", "statement": "For any non-empty delay array the filter bank is defined (it only writes entries that exist), is just long enough for the largest delay, row i is the windowed sinc delayed by the i-th delay less the smallest one, and delays differing by whole samples give the same filter shifted by that many samples.", "quantifier": "all delays", "why_tests_cant": "continuum of delays", "anchors": ["pyroomacoustics/utilities.py:fractional_delay_filter_bank"]}
{"id": "C63", "title": "Autocorrelation implementations agree", "statement": "All four implementations of the autocorrelation return the sum of products of the signal with its shift divided by the length (biased) or by the number of products (unbiased), for all lags shorter than the signal. (For longer lags the FFT method returns wrapped values instead of zeros.)", "quantifier": "all signals and lags", "why_tests_cant": "all lengths", "anchors": ["pyroomacoustics/utilities.py:autocorr"]}
{"id": "C64", "title": "Window overlap-add and symmetry", "statement": "Asymmetric Hann, triangular and squared-cosine windows of even length add to one with their half-length shift; the Hamming window to 1.08; the symmetric Hann, Hamming, triangular, cosine, Blackman-Harris, flat-top, Gaussian and Bohman windows are symmetric; Hann, cosine and Gaussian values lie in [0,1], Hamming values in [0.08,1], triangular ones in [0,1] except for the right half of an odd symmetric window; the Hann, triangular, cosine and Hamming windows climb strictly from their first value (0; Hamming 0.08) to one in the middle; for even lengths left and right half make up the full window. (Bartlett, Bartlett-Hann and Blackman windows normalise time twice and are not symmetric; the mdct flag always raises.)", "quantifier": "all window lengths and sample positions", "why_tests_cant": "all lengths", "anchors": ["pyroomacoustics/windows.py:hann", "pyroomacoustics/windows.py:triang", "pyroomacoustics/windows.py:cosine", "pyroomacoustics/windows.py:hamming"]}
{"id": "C65", "title": "Correlation-based delay estimation is exact for shifted copies", "statement": "The correlation routine returns the full cross-correlation for second signals of length at least two. For any signal that is not silent, embedded in zeros and scaled by any non-zero factor, the estimated delay (with and without phase transform) is the shift, and time alignment puts the copy exactly where the reference is; time alignment always returns a signal of the reference's length that is the input shifted by the estimated delay.", "quantifier": "all signals and shifts (given a correct FFT)", "why_tests_cant": "all signals", "anchors": ["pyroomacoustics/sync.py:correlate", "pyroomacoustics/sync.py:tdoa", "pyroomacoustics/sync.py:time_align"]}
{"id": "C66", "title": "Circular peak search finds the global maximum", "statement": "On a circular grid the peak search returns the k largest local maxima of the circular sequence (above the left and not below the right neighbour; all of them if there are fewer than k), in ascending order and none twice; if the values are not constant the last one is the position of a global maximum. On a spherical grid it returns the k largest points none of whose neighbours is higher, the last one a global maximum. (Constant values on a circle have no peak; k=0 returns all.)", "quantifier": "all grids sizes (>= 3) and value vectors", "why_tests_cant": "all vectors incl. plateaus and wrap-around", "anchors": ["pyroomacoustics/doa/grid.py:GridCircle.find_peaks", "pyroomacoustics/doa/detect_peaks.py:detect_peaks"]}
{"id": "C67", "title": "Spherical/Cartesian conversions", "statement": "Converting spherical to Cartesian coordinates gives a vector of the given radius, and converting back recovers radius, colatitude in [0,pi] and azimuth up to full turns (poles excepted); converting any vector to spherical coordinates and back returns it; the great circle distance is the radius times the angle between the directions, symmetric, zero only for equal directions, and satisfies the triangle inequality.", "quantifier": "all angles and radii", "why_tests_cant": "continuum", "anchors": ["pyroomacoustics/doa/utils.py:spher2cart", "pyroomacoustics/doa/utils.py:cart2spher", "pyroomacoustics/doa/utils.py:great_circ_dist"]}
{"id": "C68", "title": "Fibonacci sampling lies on the sphere", "statement": "All points of the Fibonacci sampling are unit vectors, with equally spaced heights symmetric around 0; the points of a circular grid are the unit vectors of equally spaced azimuths in [0,2pi), the points of a spherical grid are the normalised input points, which agree with the stored azimuths and colatitudes.", "quantifier": "all numbers of points", "why_tests_cant": "all counts", "anchors": ["pyroomacoustics/doa/utils.py:fibonacci_spherical_sampling"]}
{"id": "C69", "title": "Circular distance is a metric on the circle", "statement": "circ_dist is the length of the shortest arc between the angles; it is symmetric, between 0 and pi, invariant under full turns, zero only for equal angles modulo full turns, and satisfies the triangle inequality. (The radius argument is ignored.)", "quantifier": "all angles", "why_tests_cant": "continuum", "anchors": ["pyroomacoustics/doa/utils.py:circ_dist"]}
{"id": "C70", "title": "Source localisation keeps the requested number of sources", "statement": "Repeated calls to locate_sources without a new source count search for and return the number of sources given at construction as long as every spectrum has that many peaks; an explicit count of at least one is searched for, a lower one counts as one. (After a spectrum with fewer peaks later calls search for fewer sources.)", "quantifier": "all call histories", "why_tests_cant": "history", "anchors": ["pyroomacoustics/doa/doa.py:DOA.locate_sources"]}
{"id": "C71", "title": "Microphone array stays consistent under append", "statement": "After any sequence of append, set_directivity and record calls the array has as many directivities as microphones, appended microphones keep order, previously present positions and directivities are unchanged, and recorded signals have one row per microphone (appended microphones get a silent row); a call with a bad argument raises and changes nothing. (Except that append of a nested list raises after having extended the positions, that the centre is not updated by append, and that record at another rate without the samplerate package raises after having stored the resampled signals.)", "quantifier": "all call sequences", "why_tests_cant": "history", "anchors": ["pyroomacoustics/beamforming.py:MicrophoneArray"]}
{"id": "C72", "title": "Array geometries", "statement": "The linear array has the requested centre and consecutive spacing, the circular array has all microphones at the radius from the centre with equal chords, the square array is a regular grid of the requested pitch and direction, the spiral array lies within the radius, the random array has the requested centre; all have the requested number of points. Circular microphone arrays with directivities point outwards when not rotated. (With a rotation, given in degrees, positions take it as radians.)", "quantifier": "all sizes and parameters", "why_tests_cant": "all counts", "anchors": ["pyroomacoustics/beamforming.py:linear_2D_array", "pyroomacoustics/beamforming.py:circular_2D_array", "pyroomacoustics/beamforming.py:square_2D_array"]}
{"id": "C73", "title": "Beamformer weights satisfy their design constraints", "statement": "Delay-and-sum weights have exactly unit response to a single point source at the look position and at most unit response to any other unit-modulus field; far-field weights are pure delays or advances adding up the plane wave of the look direction coherently (gain equal to the number of microphones, the maximum over all fields); max-SINR weights have unit response to the sum of the images and the least noise-plus-interference power among all weights that do; one-forcing weights have unit response to every image; the MVDR and the perceptual filters satisfy their tap constraints with least output power. (Except that the far-field weights are not normalised and are advances, that with attenuation delay-and-sum is not normalised, that the far-field distances are not those of the individual images when there are several, that without noise and interference max-SINR fails and one-forcing yields zero, and that rcond loads every entry of the matrix when no interferer is given.)", "quantifier": "all geometries and frequencies", "why_tests_cant": "continuum", "anchors": ["pyroomacoustics/beamforming.py:rake_delay_and_sum_weights", "pyroomacoustics/beamforming.py:far_field_weights"]}
{"id": "C74", "title": "Cardioid family response and energy", "statement": "For parameter p in [0,1], the response lies between gain*(2p-1) and gain with the maximum exactly in the look direction, is rotation symmetric, and the stated total energy is the exact surface integral of the squared response; the density of the rays integrates to one and the rays carry the stated energies. (Except that the magnitude argument has no effect, that the one-shot function normalises its arguments in place, and that after set_orientation rays still follow the old direction.)", "quantifier": "all p, gains, directions", "why_tests_cant": "continuum; integral", "anchors": ["pyroomacoustics/directivities/analytic.py:CardioidFamily", "pyroomacoustics/directivities/analytic.py:cardioid_energy"]}
{"id": "C75", "title": "Rotations preserve geometry", "statement": "For every list of up to three Euler angles and axes the rotation preserves inner products and orientation and rotate_transpose undoes rotate; the rotations are by the given angle, counter-clockwise about the given axis, in the given order; other arguments are refused.", "quantifier": "all angles, axes orders", "why_tests_cant": "continuum", "anchors": ["pyroomacoustics/directivities/direction.py:Rotation3D"]}
{"id": "C76", "title": "Rejection sampling draws from the right support and count", "statement": "The rejection sampler returns exactly the requested number of samples, each of which was a proposal with acceptance test passed, for every outcome of the random stream for which it terminates; sample efficiency accounting equals accepted over proposed over all calls; it terminates when every round keeps something; a proposal is kept with probability desired over (density times scale) when that is at most one, which holds for cardioids of gain at most one. (Except that a size of zero gives one sample, that a cardioid of gain zero never terminates, and that for gain above one the samples do not follow the density.)", "quantifier": "all random streams and sizes", "why_tests_cant": "loop with random data", "anchors": ["pyroomacoustics/random/sampler.py:RejectionSampler"]}
{"id": "C77", "title": "Random directions are unit vectors", "statement": "Uniform spherical sampling returns unit vectors; power-spherical sampling returns, for every unit location, vectors at most one long and within 4e-7/|e1 - loc| of a unit vector whose cosine with the location is 2z-1 (z the beta draw), exactly when the location is e1. (Except that very near e1 the guard in the division can make the sample arbitrarily short, and that the generator passed is not used for the direction.)", "quantifier": "all random draws", "why_tests_cant": "continuum", "anchors": ["pyroomacoustics/random/spherical.py:power_spherical"]}
{"id": "C78", "title": "Dataset metadata counts are exact", "statement": "After any sequence of additions the dataset's info table counts exactly the number of samples having each attribute value, and filter returns exactly the matching samples in order with its own exact counts. (Except that a sample with an unhashable attribute raises after part of its attributes were counted.)", "quantifier": "all sequences of samples and filters", "why_tests_cant": "history", "anchors": ["pyroomacoustics/datasets/base.py:Dataset"]}
{"id": "C79", "title": "Wall constructors give outward unit normals", "statement": "A 2D wall's normal is the unit vector to the right of its corner order; a 3D wall's normal is the unit vector of the right-hand rule around its planar corners, whatever basis the SVD returns, and its area is that of the polygon; the walls built for a shoebox have the six (four) outward axis normals and the material columns of their side.", "quantifier": "all corner lists, room sizes, SVD results", "why_tests_cant": "continuum; SVD sign ambiguity", "anchors": ["pyroomacoustics/libroom_src/wall.cpp:Wall", "pyroomacoustics/libroom_src/room.cpp:make_shoebox_walls"]}
{"id": "C80", "title": "Bounced rays stay unit length and point back into the room", "statement": "For every random draw the direction of a ray after hitting a 3D wall from inside is a unit vector pointing strictly to the inner side.", "quantifier": "all draws, walls, incidence directions", "why_tests_cant": "continuum and random draws", "anchors": ["pyroomacoustics/libroom_src/wall.cpp:sample_lambertian_reflection", "pyroomacoustics/libroom_src/room.cpp:simul_ray"]}
{"id": "C81", "title": "Fractional delay filters are windowed sincs", "statement": "For fractions in [0,1], libroom.fractional_delay fills every row of its output with the Hann-windowed (table-interpolated) sinc delayed by that row's fraction, leaves the extra column of an even-width output unchanged, and never accesses memory out of bounds; for any number of threads and any schedule.", "quantifier": "all arrays of fractions, widths, granularities >= 1, thread counts >= 1, all schedules", "why_tests_cant": "all partitions, schedules and memory accesses", "anchors": ["pyroomacoustics/libroom_src/rir_builder.cpp:threaded_fractional_delay_impl"]}
{"id": "C82", "title": "simulate with an SNR: unit power per source at the reference microphone and the right noise", "statement": "Calling simulate(snr=..., reference_mic=...) scales every source by one positive gain that is the same at all microphones, so that it has unit variance at the reference microphone, and adds white noise of a variance such that (sum of the source powers)/(noise variance) is the requested SNR in decibels.", "quantifier": "every set of sources that are not constant at the reference microphone, every set of RIRs, SNR and reference microphone", "why_tests_cant": "the noise is random and tests check only shapes", "anchors": ["pyroomacoustics/room.py:simulate"]}
{"id": "C83", "title": "Filtering in the STFT domain is linear convolution", "statement": "With an FIR filter of at most zb+1 taps given to set_filter, an analysis window whose hop shifts add up to one and no synthesis window, streaming analysis, process and synthesis return the exact convolution of the input with the filter, delayed by N-hop+zf, whatever the blocks.", "quantifier": "all filters, signals, splits into blocks, N, hop, paddings", "why_tests_cant": "all signals and all block splits; tests compare one filter up to a tolerance", "anchors": ["pyroomacoustics/transform/stft.py:set_filter", "pyroomacoustics/transform/stft.py:process"]}
{"id": "C84", "title": "The Antoni bank decomposes and reconstructs signals", "statement": "AntoniOctaveFilterBank.analysis returns one signal per band, which sum sample by sample to the input if transitions do not overlap; with the default bank this holds for every signal of more than 256 samples. energy returns energies whose sum is the energy of the signal plus that of its components at 0 Hz and half the sampling frequency once more. (Shorter signals are not reconstructed by the default bank.)", "quantifier": "all signals, banks, slopes", "why_tests_cant": "all signals; the phases of a wavelet transform must cancel exactly", "anchors": ["pyroomacoustics/acoustics.py:AntoniOctaveFilterBank.analysis", "pyroomacoustics/acoustics.py:AntoniOctaveFilterBank.wavelet_analysis", "pyroomacoustics/acoustics.py:AntoniOctaveFilterBank.energy"]}
{"id": "C85", "title": "The bands of OctaveBandsFactory sum to the signal", "statement": "With keep_dc, OctaveBandsFactory.analysis returns one signal per band, each of the input's length, which sum sample by sample to the input.", "quantifier": "all centres, filter lengths and signals", "why_tests_cant": "continuum of signals", "anchors": ["pyroomacoustics/acoustics.py:OctaveBandsFactory.analysis", "pyroomacoustics/acoustics.py:OctaveBandsFactory._make_filters"]}
{"id": "C86", "title": "Linear prediction is optimal", "statement": "lpc returns the solution of the Yule-Walker equations of the (biased or unbiased) autocorrelation; with the biased one it is defined for every signal that is not silent and every order below its length, and no other coefficients give a smaller energy of the prediction residual over all time (the minimum is unique). (For orders at or above the length fewer coefficients than asked for are returned.)", "quantifier": "all signals and orders", "why_tests_cant": "all signals; minimum over all coefficient vectors", "anchors": ["pyroomacoustics/utilities.py:lpc", "pyroomacoustics/utilities.py:autocorr", "pyroomacoustics/utilities.py:levinson"]}
{"id": "C87", "title": "Peak detection returns exactly the peaks asked for", "statement": "detect_peaks returns, in ascending order, exactly the interior samples that are peaks of the requested kind (rising, falling, both edges or strict), at least mph high and at least threshold above both neighbours. With a minimum distance it returns a subset of these in which two are further apart than the distance (or, with kpsh, equally high), and every peak left out is within the distance of one returned that is at least as high (kpsh: higher).", "quantifier": "all signals, thresholds, distances and sorting orders", "why_tests_cant": "all signals incl. plateaus and ties; greedy suppression loop", "anchors": ["pyroomacoustics/doa/detect_peaks.py:detect_peaks"]}
{"id": "C88", "title": "Matching of directions", "statement": "polar_distance of two sets of at least two directions returns min(N1,N2) index pairs in which no direction is used twice, each pair being the closest among the directions not yet paired, and the mean circular distance of the pairs. (With a single direction the returned index of it is 1, one past the end.)", "quantifier": "all sets of directions", "why_tests_cant": "all inputs incl. ties; loop with a mutated matrix", "anchors": ["pyroomacoustics/doa/utils.py:polar_distance"]}
{"id": "C89", "title": "Beamformer: weights, filters and processing agree", "statement": "Filters computed from weights (when at least as long as the transform) have Lg taps and, at every frequency bin, exactly the conjugated weight as response, delayed by half a block; weights computed from filters are the conjugated response; converting there and back yields the weights up to the sign of that delay. Time-domain processing returns the sum over the microphones of the convolution of filter and signal. When only weights (or only filters) are designed, the latest design is the one used. (Except that the imaginary parts of the first and last weight are lost, that a second design of weights after processing is ignored, and that adding two beamformers exchanges transform length and filter length.)", "quantifier": "all transform lengths, filter lengths, weights, signals and sequences of designs and calls", "why_tests_cant": "continuum of weights, unbounded sequences of calls", "anchors": ["pyroomacoustics/beamforming.py:Beamformer.filters_from_weights", "pyroomacoustics/beamforming.py:Beamformer.weights_from_filters", "pyroomacoustics/beamforming.py:Beamformer.process", "pyroomacoustics/beamforming.py:Beamformer.__add__"]}
{"id": "C90", "title": "Seeding makes the package reproducible", "statement": "After pra.random.seed with a given number, the draws from the package generator and the simulations using libroom's generator are the same whatever happened before and whatever entropy the system supplies, as long as later seedings are with given numbers too; when both seeds are given the draws depend on the first only and the simulations on the second only. (Except that seeding libroom alone discards the seed of the numpy generator.)", "quantifier": "all programs of draws, simulations and seedings, all previous states", "why_tests_cant": "histories and all generator states", "anchors": ["pyroomacoustics/random/generator.py:seed", "pyroomacoustics/random/generator.py:get_rng"]}
{"id": "C91", "title": "Angles between rays and distances to lines are the geometric ones", "statement": "cos_angle_between(v1, v2) returns the cosine of an angle in [0, pi] for which the law of cosines holds; it is symmetric, does not change when an arm is scaled, changes sign when an arm is reversed, and is 1 for two equal arms. dist_line_point returns the smallest distance between the point and any point of the line through the two given points, and it is zero exactly on that line.", "quantifier": "all vectors of equal dimension, arms not zero, lines through two distinct points", "why_tests_cant": "a handful of sample points cannot show that no point of the line is closer", "anchors": ["pyroomacoustics/libroom_src/geometry.cpp:cos_angle_between", "pyroomacoustics/libroom_src/geometry.cpp:dist_line_point"]}
{"id": "C92", "title": "The interpolated energy histogram follows the bins", "statement": "interp_hist stretches a histogram to N samples: the energies of the bins are met exactly at the anchors, in between the result is the straight line between neighbouring bins, it never leaves the range of the bins, and the first half bin repeats the first value. (Except that the last half bin is silent, not the last value as documented; that a histogram of one bin of an even number of samples gives only zeros; and that bins of one sample raise.)", "quantifier": "all histograms and all bin lengths", "why_tests_cant": "all histogram lengths", "anchors": ["pyroomacoustics/simulation/rt.py:interp_hist"]}
{"id": "C93", "title": "Random arrival times are ordered and cover the duration", "statement": "poisson_sequence starts at the given time (by default the time given by the formula for the room's volume), the times increase by the logarithm of the draw over the rate, all times but the last are before the end and the last is at or after it, and the loop ends when the draws stay away from one. (Except that the rate is that of the start time plus the time, so the start is counted twice.)", "quantifier": "all volumes, durations, speeds and streams of draws", "why_tests_cant": "the loop depends on an unbounded stream of random draws", "anchors": ["pyroomacoustics/simulation/rt.py:poisson_sequence"]}
{"id": "C94", "title": "Directions of late sound follow the directional energy", "statement": "For each delta, directional_sequence picks the direction whose share of the cumulated energy contains the draw, so that each direction has the probability of its share of the energy in the bin, or all the same in a bin without energy; the sequence returned is the sum of the responses of the directions picked, at the sample of the delta, with the drawn sign, divided by the square root of the number of occupied samples around it over two bins. (Except that the bin is that of the time since the first arrival whereas the histogram counts from emission, so a delta can be given a direction without energy at its time.)", "quantifier": "all histograms, times, responses and draws", "why_tests_cant": "probabilistic choice over all draws", "anchors": ["pyroomacoustics/simulation/rt.py:directional_sequence", "pyroomacoustics/simulation/rt.py:binary_sequence", "pyroomacoustics/simulation/rt.py:seq_rolling_power"]}
{"id": "C95", "title": "The late response carries the energies of the ray tracing histograms", "statement": "compute_rt_rir returns only the default delay when the histograms are empty; otherwise the response has that delay in silence and then as many samples as the bins up to the last one with energy. Each sample is the sum over bands of the noise of the band times the square root of the interpolated energy of the band summed over directions, times the air absorption over the distance travelled; with one band nothing is heard before the first arrival time; multiplying all energies by a factor multiplies the response by its square root.", "quantifier": "all histograms, responses, draws, rooms and filter banks", "why_tests_cant": "random noise, all histograms and filter banks", "anchors": ["pyroomacoustics/simulation/rt.py:compute_rt_rir"]}
{"id": "C96", "title": "Slicing a sound source selects images by reflection order", "statement": "In the natural ordering, source[a:b] is a source at the same position, with the same signal and delay, whose images are exactly those with a reflection order in the slice (negative bounds count back from the largest order plus one), in the same sequence, each with its own damping, wall, generator and order; it raises if there are none. A list of integers picks the images at these places, negative ones counted from the end, and raises when one is out of range. A new source has one image, itself; given arrays of different lengths are refused. (Except that the directivity is dropped, that generators are not renumbered, that an integer between the brackets always raises, that images cannot be given without the optional arrays, and that after a simulation has stored images slices see order 0 only.)", "quantifier": "all sources and all slices", "why_tests_cant": "all image sets and slices", "anchors": ["pyroomacoustics/soundsource.py:SoundSource"]}
{"id": "C97", "title": "The nearest ordering gives the nearest images", "statement": "After set_ordering('nearest', p), source[:n] has the n nearest images (all if there are fewer), nearest first, with all their attributes: distances to p do not decrease and no image left out is nearer than one kept. (Except that 'strongest' always raises, that a call that raises still changes what slices mean, that images stored later by a simulation are left out, and that a list of positions ignores the ordering.)", "quantifier": "all sources, reference points and counts; argsort any sorting permutation", "why_tests_cant": "all image sets, ties", "anchors": ["pyroomacoustics/soundsource.py:SoundSource"]}
{"id": "C98", "title": "Image getters return matching images and damping", "statement": "get_images(max_order) and get_damping(max_order) return the positions and the damping of exactly the images up to that order, in the same sequence; get_images() returns all images; with n_nearest and a reference point given as a column it returns the n nearest, nearest first. (Except that a flat reference point is misused when there are as many images as dimensions, that get_damping() always raises and that wall_sequence never returns.)", "quantifier": "all sources, orders, reference points and counts", "why_tests_cant": "all image sets", "anchors": ["pyroomacoustics/soundsource.py:SoundSource"]}
{"id": "C99", "title": "The channel matrix holds the responses from every source to every microphone", "statement": "build_rir_matrix returns a matrix with Lg rows per microphone and Lg + Lh - 1 columns per source whose block for a microphone and a source is the convolution (Toeplitz) matrix of the response of Lh samples between them: a sinc at the delay of each image weighted by its damping over 4 pi distance (or without damping). All delays are shifted so that the earliest image arrives after the offset, the response covers the latest image plus the offset (to within a sample), and the samples of the sinc of any image that are cut off before or after it are at most epsilon.", "quantifier": "all microphones, sources with any number of images, filter lengths, sampling rates and epsilon", "why_tests_cant": "all scenes; the truncation bound is for all omitted samples", "anchors": ["pyroomacoustics/soundsource.py:build_rir_matrix"]}
{"id": "C100", "title": "Mode vectors are the phases of a plane wave, with or without the table", "statement": "The entry of the mode vector table for frequency bin k, microphone m and a grid point in the unit direction p is exp(2 pi i f_k tau) with f_k = k fs / nfft, where tau is the time by which a wave from a source at any distance D in that direction reaches the microphone before the origin, up to |r|^2 / (2 c (D - |r|)). Indexing without the precomputed table returns the same array as with it, for three indices (integers, slices, at most one list). An odd FFT length is refused and nothing else. (Except that with two lists of indices, or with fewer than three indices, the two differ, and that near field mode vectors have the wrong sign of the phase.)", "quantifier": "all arrays in 2 or 3 dimensions, grids, sampling rates, FFT lengths, indices", "why_tests_cant": "continuum of geometries; all index combinations", "anchors": ["pyroomacoustics/doa/doa.py:ModeVector"]}
{"id": "C101", "title": "SRP-PHAT finds a plane wave", "statement": "The SRP-PHAT spectrum at a grid point is the power of the array output steered to it, for signals reduced to their phases, summed over frequencies and snapshots and divided by their numbers and the number of pairs; it lies between 0 and 2M/(M-1) for any signals. For a plane wave from a grid point, whatever its spectrum, no other point has a larger value, and only points with the same phase differences between all microphones at all frequencies have the same one; without such points the search for one peak returns exactly that point.", "quantifier": "all arrays of at least two microphones, grids, spectra and selections of frequencies; argsort any sorting permutation", "why_tests_cant": "continuum of signals and geometries", "anchors": ["pyroomacoustics/doa/srp.py:SRP._process"]}
{"id": "C102", "title": "The MUSIC spectrum is infinite exactly at the sources", "statement": "For any eigenvalue decomposition of the covariance of the signals, the MUSIC spectrum at a grid point and frequency is one over the power of the mode vector in the span of the noise eigenvectors, at least 1/M. If the covariance is that of num_src sources at grid points, not fully correlated, in white noise, it is infinite at each of them, and (if their mode vectors are independent) only at points whose mode vector is a combination of theirs. The mean over frequencies is infinite at the sources and finite at points unambiguous at every frequency. Normalised, the values lie in (0,1] and are 1 exactly where every frequency has its maximum. (Except that for an exact source on the grid the normalised spectrum is not a number, and that after a frame without a peak num_src is 0 and the spectrum is infinite everywhere.)", "quantifier": "all numbers of microphones and sources, signals, noise powers and decompositions", "why_tests_cant": "continuum of signals; any valid eigenvalue decomposition", "anchors": ["pyroomacoustics/doa/music.py:MUSIC", "pyroomacoustics/doa/normmusic.py:NormMUSIC"]}
{"id": "C103", "title": "Direction finding uses the frequencies asked for", "statement": "locate_sources refuses signals whose shape does not match the array and FFT length. Given bins, it uses those from 0 to nfft/2 in the given sequence. Given a frequency range it uses, once and in ascending order, every bin whose frequency is inside by more than half a bin and none more than half a bin outside (none above the upper end minus half a bin). (Except that frequencies given in Hz raise.)", "quantifier": "all sampling rates, FFT lengths, ranges and lists of bins", "why_tests_cant": "all roundings of the range", "anchors": ["pyroomacoustics/doa/doa.py:DOA.locate_sources"]}
{"id": "C104", "title": "A room tells the points inside it from those outside", "statement": "In a room made from the corners of any polygon, is_inside answers by the even-odd rule whenever in some round the line from the reference point to the point misses the corners by the tolerance and the walls it crosses are missed by both its ends (every earlier round being ambiguous). The rule changes exactly with every wall crossed on the way from one point to another, is false for every point that some line separates from the room, and in a convex room it is true exactly for the points on the inner side of every wall. A point on a wall gets include_borders. (Except that a point inside is reported outside when all draws are unlucky, and that a point far outside is reported inside when the reference point comes within the tolerance of the line of a wall.)", "quantifier": "all polygons, points, draws and numbers of rounds", "why_tests_cant": "continuum of points and random draws", "anchors": ["pyroomacoustics/room.py:Room.is_inside", "pyroomacoustics/room.py:Room.get_bbox"]}
{"id": "C105", "title": "The theoretical reverberation time averages walls and bands", "statement": "Sabine's variant of rt60_theory is the harmonic mean, weighted by the bandwidths, of Sabine's times of the bands for the absorption averaged over the surface of the walls; it lies between the shortest and the longest of them, and for one band it is Sabine's formula. Eyring's variant is Eyring's formula if all walls absorb the same, and otherwise at most Eyring's formula for the average absorption. (Except that the absorption of the air is counted once per wall, that unequal walls give another time than Eyring's formula, and that with air absorption Eyring's time can be negative.)", "quantifier": "all rooms, absorptions, bands, volumes", "why_tests_cant": "continuum of rooms and materials", "anchors": ["pyroomacoustics/room.py:Room.rt60_theory"]}
{"id": "C106", "title": "Measured reverberation times ignore gain, delay and padding", "statement": "measure_rt60 gives the same result for a response multiplied by any factor but zero, with zeros appended, and (unless it raises) with zeros in front; the same samples at a rate c times higher give a time c times shorter.", "quantifier": "all responses, rates, decays, energy fractions; any solver of the regression", "why_tests_cant": "all responses", "anchors": ["pyroomacoustics/experimental/rt60.py:measure_rt60"]}
{"id": "C107", "title": "Measured reverberation times are right for exponential decays", "statement": "If, from 5 dB below the start to the last but one sample with energy, the energy remaining falls by between lo and hi decibels per sample, the estimate lies between the times that 60 dB take at these rates; for a geometric decay it is exactly that time, in the logarithmic and in the linear domain. It is never negative, and zero only if the energy does not fall by 5 dB before the last sample. (Except that a response with only its first sample raises, that the last sample is always left out so that a response falling by 10 dB in it gets the time 0, and that with one sample in the range the code divides by zero.)", "quantifier": "all responses, rates, decays; any least squares solver", "why_tests_cant": "continuum of responses", "anchors": ["pyroomacoustics/experimental/rt60.py:measure_rt60", "pyroomacoustics/experimental/rt60.py:_fit_exp_and_extrapolate"]}
{"id": "C108", "title": "Directive sources and microphones filter every image once", "statement": "multi_convolve gives the linear convolution of the rows, without wrap-around, and refuses arrays with different numbers of rows. compute_ism_rir with directivities given by impulse responses is the sum, over the visible images, of the image's amplitude times the flat gains times the series of the microphone's filter for the direction of arrival, the source's filter for the direction of departure and a fractional delay, started at the whole number of samples the wave travels; with several bands the band amplitudes form one more filter and half its length is cut unless minimum phase. Unit impulses give what is built without directivities, and flat gains are the same as multiplying the dampings. (Except that the documented octave-band directivities raise, because the gains are not transposed.)", "quantifier": "all images, masks, dampings, air, directivities, filter lengths, thread counts and schedules", "why_tests_cant": "all rooms, directivities and interleavings", "anchors": ["pyroomacoustics/simulation/ism.py:multi_convolve", "pyroomacoustics/simulation/ism.py:compute_ism_rir", "pyroomacoustics/utilities.py:angle_function", "pyroomacoustics/directivities/base.py:Directivity"]}
{"id": "C109", "title": "Back-projection gives the gain closest to the reference", "statement": "projection_back returns, for every bin and channel, the complex gain whose application brings the signal closest in squared error to the reference microphone; a signal proportional to the reference is restored exactly, rescaling a signal does not change its projected version, silent signals get gain 1, and with clip_up (clip_down) the gain is the best among those of magnitude at most (at least) the limit. (A gain that is exactly 0 ignores clip_down.)", "quantifier": "all signals, references, numbers of frames, limits", "why_tests_cant": "all complex signals", "anchors": ["pyroomacoustics/bss/common.py:projection_back"]}
{"id": "C110", "title": "AuxIVA: output, normalisation and decorrelation of the separated signals", "statement": "auxiva refuses more sources than microphones. Its output is the returned demixing filters applied to the input, and with proj_back each separated signal is that output times the gain closest to the first microphone. After every iteration each separated signal has weighted power 1 at every frequency, with the weights computed from the output of the previous iteration, and it is uncorrelated, under its weights, with the new signals of the sources before it and the old signals of those after it. With fewer sources than microphones the matrices are completed with background rows whose outputs are uncorrelated with every source.", "quantifier": "all inputs, numbers of frequencies, microphones, sources, frames, iterations, initial matrices, both models, every solver that solves", "why_tests_cant": "all inputs and iteration counts", "anchors": ["pyroomacoustics/bss/auxiva.py:auxiva", "pyroomacoustics/bss/common.py:projection_back"]}
{"id": "C111", "title": "AuxIVA: iterations never increase the objective", "statement": "With as many sources as microphones and regular initial matrices, running auxiva for more iterations never increases the independent-vector-analysis objective (mean contrast of the separated sources minus the log squared determinants of the demixing matrices) for the Laplace and the Gauss models, the demixing matrices stay regular, and every row update is the best possible row given the weights and the other rows.", "quantifier": "all inputs, sizes, iteration counts, initial matrices, both models, every solver that solves", "why_tests_cant": "convergence of an iterative algorithm for all inputs", "anchors": ["pyroomacoustics/bss/auxiva.py:auxiva"]}
{"id": "C112", "title": "ILRMA: output, likelihood and returned filters", "statement": "ilrma refuses a number of sources different from the number of microphones. With no iterations its output is the given filters applied to the input; with back-projection every separated signal is the unprojected one times the gain closest to the first microphone. In an iteration, the updates of the bases, activations and demixing rows of each source never increase the negative log-likelihood of the low-rank model (before the rescaling that ends the iteration and away from the lower limits), and the demixing matrices stay regular. (But the filters returned after an iteration do not give the returned signals, not even up to a gain: the rescaling multiplies columns instead of rows and the output is not rescaled.)", "quantifier": "all inputs, sizes, iteration counts, initial matrices, random factors, every solver that solves", "why_tests_cant": "convergence of an iterative algorithm for all inputs", "anchors": ["pyroomacoustics/bss/ilrma.py:ilrma", "pyroomacoustics/bss/common.py:projection_back"]}
{"id": "C113", "title": "FastMNMF and FastMNMF2: the separated images", "statement": "Whenever fastmnmf (without a singular-matrix warning) or fastmnmf2 returns finite numbers, the separated source images at a microphone add up to that microphone's input. In the diagonalised domain each image is the observation times a share between 0 and 1, the shares of the sources adding up to 1. A microphone index, from either end, returns that microphone's part of what 'all' returns; other indices raise. (But the caller's W0 array is overwritten in place, and when fastmnmf falls back to the pseudo-inverse the images need not add up.)", "quantifier": "all inputs, sizes, iteration counts, initial matrices, random factors, every inverse that inverts", "why_tests_cant": "conservation law of an iterative algorithm for all inputs", "anchors": ["pyroomacoustics/bss/fastmnmf.py:fastmnmf", "pyroomacoustics/bss/fastmnmf2.py:fastmnmf2"]}
{"id": "C114", "title": "FastMNMF and FastMNMF2: every update improves the fit", "statement": "At any iteration, the updates of the bases, activations and gains of fastmnmf (accelerate off) never increase the Itakura-Saito fit to the projected powers, including the penalty implied by the constant in the denominators; and they stay finite as long as every channel has a source with positive gain, the diagonaliser updates too if no projected channel is silent, keeping the gains positive. For fastmnmf2 the gain update and then the diagonaliser update never increase the negative log-likelihood, and the diagonalisers stay regular. The normalisation of either algorithm gives the diagonalisers, the gains and the bases unit size and divides the projected powers and their model, source by source, by one common positive number per frequency. The accelerate flag of fastmnmf2 has no effect on its result.", "quantifier": "all inputs, sizes, iteration counts, initial matrices, random factors, every solver that solves", "why_tests_cant": "monotonicity of an iterative algorithm for all inputs", "anchors": ["pyroomacoustics/bss/fastmnmf.py:fastmnmf", "pyroomacoustics/bss/fastmnmf2.py:fastmnmf2"]}
{"id": "C115", "title": "Spectral subtraction: the gains and the one-shot function", "statement": "For any sequence of spectra given to one SpectralSub object, the gain of a bin with energy is the documented max(((P - beta*P_N)/P)^alpha, 10^(-db_reduc/20)), the noise P_N being the smallest power of that bin in the last lookback+1 frames (zero while there are fewer). So the gains lie between 10^(-db_reduc/20) and 1, are 1 in the first lookback frames, and do not depend on the level of the signal. apply_spectral_sub is the overlap-add of the frames multiplied by these gains; with db_reduc=0 it returns the signal delayed by half a frame (samples after the last whole block are zero). Its result is finite exactly if no frame has a bin without energy: digital silence gives NaN.", "quantifier": "all sequences of frames, signals, sizes and parameters alpha>0, beta>=0", "why_tests_cant": "state over unbounded sequences of frames", "anchors": ["pyroomacoustics/denoise/spectral_subtraction.py:SpectralSub", "pyroomacoustics/denoise/spectral_subtraction.py:apply_spectral_sub"]}
{"id": "C116", "title": "Iterative Wiener filter: gains, noise level and the one-shot function", "statement": "For any sequence of calls on one IterativeWiener object that stays finite, the noise level is the exponential average of the variances of the frames below the threshold and stays below the threshold, and each output bin is the input bin times a gain p/(p+noise) in (0,1], divided by sqrt(frame_len). apply_iterative_wiener is the overlap-add of such frames; it is always finite if everything is below the threshold. Without noise it returns the delayed signal divided by sqrt(frame_len), so the level is not kept. The caller's frame_dft array is overwritten, and the one-shot function decides between speech and noise on the transform's buffer, whose first half is not the analysed frame.", "quantifier": "all sequences of frames, signals, sizes and parameters, all outcomes of the iterations", "why_tests_cant": "state over unbounded sequences of frames, invariant of an iterative algorithm", "anchors": ["pyroomacoustics/denoise/iterative_wiener.py:IterativeWiener", "pyroomacoustics/denoise/iterative_wiener.py:apply_iterative_wiener"]}
{"id": "C117", "title": "Subspace denoising: estimates, filter and overlap-add", "statement": "For any sequence of blocks given to one Subspace object, the covariance of the noisy signal is the sum of the frame products over the last lookback blocks divided by lookback*(hop//skip), the noise covariance is the quotient of the sums and counts over the same blocks of the frames below the threshold (a block without such frames repeats the previous estimate), and both stay symmetric and positive semidefinite. Each output block is the overlap-add, with a symmetric Hann window, of the frames multiplied by the filter that scales each eigenvector of (noise covariance)^-1(covariance)-I by l/(l+mu) if its eigenvalue l is positive and by 0 otherwise; for mu>0 these gains lie in [0,1) and grow with l. apply_subspace is this for the blocks of the signal, followed by zeros, with the length of the input. Odd frame lengths, blocks of another length, and skip=0 or skip>hop or lookback=0 fail. The returned block is the internal buffer, so results that are kept are overwritten by the next call; a signal without background noise is muted completely; when skip does not divide the hop the covariance is not an average.", "quantifier": "all sequences of blocks, signals, sizes and parameters; all linear-algebra routines meeting their specification", "why_tests_cant": "state over unbounded sequences of blocks, invariant of running sums", "anchors": ["pyroomacoustics/denoise/subspace.py:Subspace", "pyroomacoustics/denoise/subspace.py:apply_subspace"]}
{"id": "C118", "title": "Hidden Markov models: probabilities and structure", "statement": "forward returns, at each frame, the probability of each state given the frames so far and the density of the frame given the previous ones, as defined by summing over all state sequences; loglikelihood is the logarithm of the density of the whole sample and is defined exactly when that density is not zero (always, when all rows of the chain sum to one and the variances are positive). The expectation step gives the probability of each state and each pair of successive states given the whole example. A full chain has the normalised draws as rows; a left-right chain starts in state 0, never goes back, never jumps further than leftright_jump_max and stays with probability at least 2/3; another model name leaves an undefined chain. fit never makes an impossible start or transition possible; its rows sum to one, except that a state left less than 1e-15 times gets a zero row, after which the next fit divides by zero and generate fails. Generated samples only use possible states and transitions.", "quantifier": "all chains, emission parameters and samples", "why_tests_cant": "sums over exponentially many state sequences; unbounded training", "anchors": ["pyroomacoustics/recognition.py:HMM.__init__", "pyroomacoustics/recognition.py:HMM.forward", "pyroomacoustics/recognition.py:HMM.backward", "pyroomacoustics/recognition.py:HMM.update_parameters", "pyroomacoustics/recognition.py:HMM.generate", "pyroomacoustics/recognition.py:HMM.loglikelihood"]}
{"id": "C119", "title": "Hidden Markov models: training never loses likelihood", "statement": "The log-likelihood computed by an iteration of HMM.fit is the sum of loglikelihood over the examples; the updated chain and CircularGaussianEmission give a sum at least as large, provided the new variances are positive and every state is left never or at least 1e-15 times (in expectation); the same holds for the chain update with any emission whose update does not decrease the expected log-density. fit returns after 1 to max_iter iterations, either max_iter of them or with a last gain below tol, and the model it leaves is at least as likely as the one it started from. A state left less than 1e-15 times (but not never) loses its transitions, which can decrease the likelihood.", "quantifier": "all chains, emissions, examples, tolerances and iteration counts", "why_tests_cant": "an inequality over all real data; tests only see a few trajectories", "anchors": ["pyroomacoustics/recognition.py:HMM.fit", "pyroomacoustics/recognition.py:HMM.update_parameters", "pyroomacoustics/recognition.py:CircularGaussianEmission.update_parameters"]}
{"id": "C120", "title": "Griffin-Lim phase reconstruction", "statement": "griffin_lim returns F*hop samples. One more iteration never increases the squared distance, over all frames and all bins of the transform, between the given magnitudes and those of the STFT of the returned signal (preceded by the samples the STFT object keeps: silence for the first iteration, afterwards the last fft_size-hop samples of the signal, so that from the first iteration on it is one and the same distance that decreases); a signal that already has the given magnitudes is left unchanged. The start is defined for every invertible window and zero, random or given nonzero phases; a further iteration is defined exactly when no bin of the current signal vanishes (never for silence). Given the magnitudes and phases of the STFT of a signal, the start is that signal except for the last fft_size-hop samples. Those last samples are never reconstructed: they stay a copy of the samples before them, and because of them one iteration can move a signal with its true phases away from itself. A single frame and frames without overlap are refused. The array passed as ini is normalised in place.", "quantifier": "all magnitudes, windows, hops, starts and iteration counts", "why_tests_cant": "an inequality over all real spectra and all iterations", "anchors": ["pyroomacoustics/phase/gl.py:griffin_lim"]}
{"id": "C121", "title": "Point clouds move rigidly", "statement": "PointCloud.EDM holds the squared distances of the points. normalize (2D and 3D), center, align (2D, or around the z-axis) and flatten leave the EDM, the dimension and the labels as they are. normalize puts the first reference at the origin; in 2D the second on the nonnegative x-axis and the third above it; in 3D the third in the half plane z=0, y>=0 and the fourth above that plane, the second on the x-axis when it is as high as the first (otherwise not, contrary to the documentation). It works exactly with three references in 2D, four in 3D. center puts the point at the origin, align the point at (sqrt(x^2+y^2), 0, z). Around the x or y axis align overwrites coordinates and does not preserve distances; a label cannot be combined with an axis number. flatten makes the last axis the direction in which the given group spreads least over all directions; it refuses groups with fewer points than dimensions, except single points, which collapse the cloud onto a line. correct adds each given vector to its point only; doa returns azimuth in (-pi,pi] and elevation in [-pi/2,pi/2] of the direction from receiver to source. A label refers to the first point that carries it, default labels are the decimal indices, an integer index may be negative.", "quantifier": "all clouds, references, labels and groups", "why_tests_cant": "an equality of distances over all real coordinates and angles", "anchors": ["pyroomacoustics/experimental/point_cloud.py:PointCloud"]}
{"id": "C122", "title": "Points from distances, and the EDM line search", "statement": "PointCloud(EDM=D): for the squared distances D of any points in dim dimensions, classical multidimensional scaling returns points with exactly these distances whenever eigenvectors of one nonzero eigenvalue are orthogonal, in particular when the nonzero eigenvalues are distinct; since eig does not promise orthogonality for repeated eigenvalues, it can return wrong distances there (equilateral triangle). With fewer points than dimensions the result has as many coordinates as points. A matrix that is not square is refused; method 'tri' never returns (undefined name). trilateration_single_point returns the point with nonnegative first coordinate at the given distances from the origin and (0,c). edm_line_search evaluates its cost on the equally spaced grid from bounds[0] to bounds[1]; the cost is never negative, and it is zero at the offset that turns the differences (given as lengths) into the distances from a source, for four or more points in up to three dimensions; with three points the cost at the true offset is not zero.", "quantifier": "all point sets, sources, offsets, grids and eigenvalue decompositions", "why_tests_cant": "an identity over all distance matrices, and an eigenvalue count", "anchors": ["pyroomacoustics/experimental/point_cloud.py:PointCloud.fromEDM", "pyroomacoustics/experimental/localization.py:edm_line_search"]}
{"id": "C123", "title": "Deconvolution, time differences of arrival, and localisation from them", "statement": "deconvolve(y, s) returns the impulse response exactly (then zeros, cut to the length asked for) when y is the full response to s and no bin of the spectrum of s falls below the threshold; at the default threshold it always returns the smallest response that explains the recording best on the circle. tdoa(x1, x2) of two shifted copies of a signal (one scaled) returns the delay of x1 with respect to x2, with and without phase transform, whenever it is at most half the transform; with interpolation whenever the delay times the factor is; otherwise the lag wraps around. tdoa_loc returns the source exactly for exact times of arrival up to a common offset, provided the baselines of the microphones with a nonzero delay determine it. (Exceptions proved: test signals of mean zero lose the mean of the response; the sign is opposite to the documentation; one lag occurs twice in the array and the wrong one is reported; interpolation shrinks the range; the phase transform of a signal of mean zero reports the most negative lag; a planar array always yields a point of zero height; a source equidistant from all microphones raises.)", "quantifier": "all signals, lengths, thresholds, shifts, scales, interpolation factors, microphone positions in any dimension", "why_tests_cant": "identities over all signals and geometries", "anchors": ["pyroomacoustics/experimental/deconvolution.py:deconvolve", "pyroomacoustics/experimental/localization.py:tdoa", "pyroomacoustics/experimental/localization.py:tdoa_loc"]}
{"id": "C124", "title": "The subband adaptive filter", "statement": "SubbandLMS keeps the last num_taps blocks, newest first, zeros before the start; bands never interact; only a filter without taps raises. If the reference is the output of an unknown filter bank of the same length and the step size is between 0 and 2 (with nlms; without, up to 2 over the recent power), no update takes the filters further from the unknown ones, and the squared errors, weighted by the steps made, plus the remaining distance sum exactly to the energy of the unknown filters; with nlms and inputs of bounded power the squared errors of an endless run have a bounded sum. With noise in the reference and steps up to 1, the weighted error without noise plus the remaining distance never exceeds the weighted noise plus that energy. With one tap the error of the filter is multiplied by 1 minus step times power at each block.", "quantifier": "all numbers of taps and bands, step sizes, inputs, references, noises, unknown filters, numbers of blocks", "why_tests_cant": "statements about runs of any length and any data", "anchors": ["pyroomacoustics/adaptive/subband_lms.py:SubbandLMS"]}
{"id": "C125", "title": "Median with confidence interval", "statement": "metrics.median has at most half of the data on each side, minimises the sum of absolute deviations, does not depend on the order of the data and follows any change of units. For levels 0 < alpha < 1 and samples below the bound of the normal approximation, an interval is returned exactly when 2^n exceeds 2/alpha; its ends are data points, it contains the median of the sample, and of all samples of that size drawn from any population (ties included) the intervals of at least the fraction 1 - alpha contain the median of the population. From the bound on an interval always exists and contains the median of the sample. (Exceptions proved: the lower value is returned with its sign, so the documented [m - le, m + ue] is wrong; at 2^n = 2/alpha the function raises although the range of the sample has exactly the level asked for.)", "quantifier": "all data, levels, sample sizes, populations", "why_tests_cant": "a statement on the fraction of all samples of all populations", "anchors": ["pyroomacoustics/metrics.py:median"]}
{"id": "C126", "title": "Error, signal to noise ratio and sweeping echoes", "statement": "mse of two signals is symmetric, not negative, and zero only for equal signals. snr(ref, ref + noise) is the ratio of the energies and does not change when both signals are scaled. sweeping_echo_measure lies between 0 and 1; it is 1 exactly if the mean magnitudes along all slopes are equal and 0 exactly if one of them is zero, and scaling the response does not change it. (Exceptions proved: mse of arrays with several columns is not the documented mean; the echo measure is NaN for every response sampled at 8 kHz, and for every response at 16 kHz that starts with 512 zeros; its frequency axis is off by more than a factor of two.)", "quantifier": "all signals, gains, rates, time windows and bandwidths", "why_tests_cant": "identities and inequalities over all signals", "anchors": ["pyroomacoustics/metrics.py:mse", "pyroomacoustics/metrics.py:snr", "pyroomacoustics/metrics.py:sweeping_echo_measure"]}
{"id": "C127", "title": "The mel filter bank", "statement": "melfilterbank(M, N, fs, fl, fh) returns M triangular filters over the N//2 + 1 bins. Their corners are equally spaced on the mel scale from fl*fs to fh*fs; filter m is positive exactly strictly between corners m and m+2, and its largest possible value, 2 / (distance of these corners), is reached exactly at corner m+1. Filters scaled to height one add to one at every bin between the first and the last top, and a bin excites at most two filters, which are neighbours. (Exception proved: low filters narrower than a bin are zero.)", "quantifier": "all numbers of filters, transform lengths, rates and frequency ranges", "why_tests_cant": "a statement for all sizes and real frequency ranges", "anchors": ["pyroomacoustics/acoustics.py:melfilterbank"]}
{"id": "C128", "title": "Critical bands in bins, and binning", "statement": "The critical bands are 24 contiguous bands from 0 to 15.5 kHz, each around its centre. bands_hz2s turns contiguous bands starting at 0 Hz into bands of DFT bins such that every bin below N/2 is in exactly one band, bands follow each other, each starts and ends within half a bin of a band given, and the last ends at N/2; bands too narrow for a bin are left out. binning returns the mean over each band. (Exceptions proved: for a DCT the last band can end before it starts; a band starting at half the sampling rate is kept and empty, so binning gives NaN, as for the critical bands at 24 kHz; binning does not return sums as documented.)", "quantifier": "all band lists, rates, transform lengths and spectra", "why_tests_cant": "rounding to bins for all real edges and rates", "anchors": ["pyroomacoustics/acoustics.py:critical_bands", "pyroomacoustics/acoustics.py:bands_hz2s", "pyroomacoustics/acoustics.py:binning"]}
{"id": "C129", "title": "Pole-zero models of signals", "statement": "prony(x, p, q) returns a monic polynomial a of order p and b of order q such that the convolution a * x equals b up to sample q, err is the energy of a * x after sample q, and no other monic a of order p leaves less; so a signal that some denominator of order p ends after sample q is modelled without error. shanks keeps that a; the impulse response of b / a is then the closest to x over len(x) samples among all numerators of order q, and err is its squared distance. (a is the denominator, documented as the numerator. Exception proved: the zeros after the end of x count as data, so the beginning of an exponential decay gives a wrong pole.)", "quantifier": "all real signals and orders with p + q < len(x)", "why_tests_cant": "optimality over all coefficient vectors", "anchors": ["pyroomacoustics/utilities.py:prony", "pyroomacoustics/utilities.py:shanks", "pyroomacoustics/utilities.py:convmtx"]}
{"id": "C130", "title": "Filters of minimum phase", "statement": "magnitude_response_to_minimum_phase returns n_fft taps whose spectrum has, at every bin below half the rate, the given magnitude (at least eps, and eps at the bins that are not given); the taps sum to the first magnitude. For odd n_fft the spectrum is exp(A(1/z)) on the n_fft points of the unit circle for a real polynomial A, which has neither zeros nor poles: the filter is of minimum phase. It raises exactly when the magnitudes do not fit into n_fft points. (Exceptions proved for even n_fft: the mirrored response has one point too many, so the phases belong to n_fft + 1 points; the zero of the filter can lie outside the unit circle and the magnitude at half the rate can be lost.)", "quantifier": "all magnitude responses, n_fft, eps", "why_tests_cant": "the phase relation is a statement about all frequencies at once; tests compare single filters", "anchors": ["pyroomacoustics/acoustics.py:magnitude_response_to_minimum_phase"]}
{"id": "C131", "title": "Figures of merit of a beamformer and the designs that maximise them", "statement": "snr and udr are, at the bin nearest to the frequency asked for, the power of the summed response to the images (the summed powers of the responses, for udr) divided by the power of noise and interferer. The weights of rake_max_sinr_weights have the largest snr of all weights. The udr of the weights of rake_max_udr_weights is the eigenvalue listed first by the solver, and the largest udr of all weights if that eigenvalue is the largest. With an interferer the filters of rake_max_udr_filters have the largest ratio of the energy in the useful taps to that of the other taps, the interferer and the noise, and that ratio is returned. (Exceptions proved: the solver lists the eigenvalues in any order, so the weights can be the worst instead of the best; without an interferer late echoes are not counted and other filters are better.)", "quantifier": "all arrays, sources, interferers, noise covariances, frequencies and weights", "why_tests_cant": "optimality compares with all other weights", "anchors": ["pyroomacoustics/beamforming.py:snr", "pyroomacoustics/beamforming.py:udr", "pyroomacoustics/beamforming.py:rake_max_sinr_weights", "pyroomacoustics/beamforming.py:rake_max_udr_weights", "pyroomacoustics/beamforming.py:rake_max_udr_filters"]}
{"id": "C132", "title": "Regular grids on the sphere and the weights of their points", "statement": "detect_regular_grid recognises every set of points made of all pairs of evenly spread azimuths and some colatitudes, in whatever order they are listed, and returns the azimuths and the colatitudes in order. Whatever it returns is such a grid: the points are all the pairs, each once, and the azimuths are evenly spread up to the tolerance of the comparison. The weights that calculation_pinv_voronoi_cells then gives to the points are the fractions of the sphere nearer in colatitude to the point than to the others, shared between the azimuths; they are positive and sum to one. (Exception proved: an empty set of points raises instead of being no grid.)", "quantifier": "all numbers of azimuths (up to 50000 for the converse, where the tolerance still separates the points) and colatitudes, all values and orders of listing", "why_tests_cant": "all grids and all orders of listing", "anchors": ["pyroomacoustics/doa/utils.py:detect_regular_grid", "pyroomacoustics/directivities/interp.py:calculation_pinv_voronoi_cells"]}
{"id": "C133", "title": "Areas of the cells of points on the sphere", "statement": "robust_spherical_voronoi_areas returns the area of the sphere for one point, half of it for each of two points, and for three or more points around a great circle, one in every half of it, twice the angle between the bisectors to the two neighbours, in the order of the points; the areas sum to that of the sphere. (Exceptions proved: for three points that are not on one great circle, such as the three axes, the areas sum to less than that of the sphere; likewise for points on less than half of a great circle.)", "quantifier": "all numbers of points, all angles, distances from the centre (for three points) and orders of listing", "why_tests_cant": "all sets of points", "anchors": ["pyroomacoustics/directivities/integration.py:robust_spherical_voronoi_areas"]}
{"id": "C134", "title": "Real spherical harmonics", "statement": "get_mn_in_acn_order lists order m of degree n as channel n^2+n+m, all orders up to the degree and nothing else, and the basis of the interpolation uses the same order of channels. real_sph_harm refuses orders beyond the degree and otherwise returns the normalised Legendre function of the colatitude times 1, sqrt(2) cos(m azimuth) or sqrt(2) sin(|m| azimuth). For every degree the sums over the orders of products of two directions are those of the complex harmonics, so that nothing is lost by using the real ones. The first four channels respond to a direction of any length with constants times 1, y/r, z/r and x/r. (Exceptions proved: condon_shortley_phase does not only change signs but also takes away sqrt(2); magnitude=True is ignored.)", "quantifier": "all degrees, orders and directions", "why_tests_cant": "all degrees and directions", "anchors": ["pyroomacoustics/directivities/harmonics.py:get_mn_in_acn_order", "pyroomacoustics/directivities/harmonics.py:real_sph_harm", "pyroomacoustics/directivities/harmonics.py:RealSphericalHarmonicsDirectivity", "pyroomacoustics/directivities/interp.py:cal_sph_basis"]}
{"id": "C135", "title": "Interpolation of responses on the sphere", "statement": "For a grid that samples the sphere well enough for the order, spherical_interpolation combines the measured responses with real gains that are the same for every sample, whatever the responses and the length of the transform. Responses that are patterns of at most the order are reproduced on the grid and continued exactly to all new points. On the grid the result is the pattern of the order with the least squared error weighted by the squares of the areas of the cells. (Exception proved: it is not the one weighted by the areas, as weighted least squares would have it.)", "quantifier": "all grids, new grids, orders, responses and transform lengths", "why_tests_cant": "exactness for all patterns and optimality among all patterns", "anchors": ["pyroomacoustics/directivities/interp.py:spherical_interpolation", "pyroomacoustics/directivities/interp.py:_weighted_pinv", "pyroomacoustics/directivities/interp.py:cal_sph_basis"]}
{"id": "C136", "title": "Measured directivities", "statement": "The response of a MeasuredDirectivity to a direction is the one measured in the direction of the grid with the smallest angle to it, the grid turned by the orientation; only the last orientation set counts. Angles are in degrees or radians as asked for; without colatitudes, in radians, the directions lie in the horizontal plane. In a measured direction, turned by the orientation, it is the response measured there. The density of the random rays is proportional to the measured energy and integrates to one over the cells, the ratio used to accept a ray is between zero and one, all rays that can be drawn carry the same total energy, and in every band they carry on average what uniform rays carry. A MeasuredDirectivityFile, without interpolation, gives towards the position of each source (microphone) exactly the response recorded for this pair; what it returns does not depend on earlier requests, and identifiers that name no measurement raise. (Exception proved: leaving out the optional colatitude with angles in degrees, the default, raises.)", "quantifier": "all grids, responses, rotations, directions, files and sequences of requests", "why_tests_cant": "all orientations, grids and histories of requests; averages over the density", "anchors": ["pyroomacoustics/directivities/measured.py:MeasuredDirectivity", "pyroomacoustics/directivities/measured.py:MeasuredDirectivityEnergyDistribution", "pyroomacoustics/directivities/measured.py:MeasuredDirectivityFile"]}
{"id": "C137", "title": "Densities of random directions", "statement": "The density of UniformSpherical is the reciprocal of the area of the unit sphere in every dimension. PowerSpherical.pdf is the density of what PowerSpherical.sample draws: at every height over the location its sum over the directions at that height is the density of twice the beta number the sampler uses minus one, in every dimension and for every scale. In three dimensions it integrates to one over the sphere for every location and scale. It is not negative and grows with the cosine of the angle to the location. (Exception proved: locations are accepted up to a tolerance, and opposite to one that is too long the density is negative.)", "quantifier": "all dimensions (all locations and scales); the integral in three dimensions", "why_tests_cant": "normalisation and agreement of two formulas for all parameters", "anchors": ["pyroomacoustics/random/distributions.py:UniformSpherical", "pyroomacoustics/random/distributions.py:PowerSpherical", "pyroomacoustics/random/spherical.py:power_spherical"]}
{"id": "C138", "title": "Histograms on the sphere and neighbours on its grids", "statement": "Whatever was pushed into a SphericalHistogram and read from it before, the counts are the numbers of points nearest to the points of the grid, the total is the number of points, and the histogram is proportional to the counts and integrates to one; with cells of equal areas its integral over a cell is the fraction of the points in it. The neighbours of a point of a GridSphere are, each once, the other corners of the triangles of the hull it belongs to, so being a neighbour is symmetric; min_max_distance returns the smallest and the largest angle between neighbours and a mean between them. (Exceptions proved: with cells of different areas the integral over a cell is not the fraction of the points; pushing no points into an empty histogram turns it to NaN.)", "quantifier": "all grids, areas, sequences of pushes and reads, and hulls", "why_tests_cant": "all histories of pushes and reads and all triangulations", "anchors": ["pyroomacoustics/directivities/histogram.py:SphericalHistogram", "pyroomacoustics/doa/grid.py:GridSphere._compute_neighbors", "pyroomacoustics/doa/grid.py:GridSphere.min_max_distance"]}
{"id": "C139", "title": "TRINICON", "statement": "trinicon filters the microphones: in every block of hop samples an output is the sum of the microphone signals convolved with the filters of that block, with the true past of the signals at the seams, and the filters returned are those of the last block. The filters of a block are those of the block before, smoothed with lambd_a towards j_max steps along the gradient, which sums the correlations of the two outputs in the K blocks weighted by the energies and the filters of the other output. Outputs that are uncorrelated in every block up to the length of the filters leave the filters unchanged. Exchanging the two outputs of the initial filters exchanges the outputs. (Exception proved: the padding is computed from the number of microphones, so the end of the signals may be lost and the length of the output is not that of the input.)", "quantifier": "all signals, numbers of microphones, filter and block lengths, step sizes and initial filters", "why_tests_cant": "all signals and parameters; seams between all pairs of blocks", "anchors": ["pyroomacoustics/bss/trinicon.py:trinicon"]}
{"id": "C140", "title": "Sparse AuxIVA", "statement": "sparseauxiva runs AuxIVA on the active bins: the relative transfer functions it completes are those auxiva finds on the selected bins alone. sparir walks from a unit impulse along the exact gradient of a quadratic misfit at the true residual, with shrinking and with step sizes between the given bounds, and stops when the optimality conditions hold within tol or after maxiter - 1 steps. The returned filters are the transforms of its real responses and -1; the outputs of the first bins, as many as there are active ones, are those filters applied to the input, scaled by back projection to come closest to the first microphone. (Exceptions proved: the filters of the bins f and F - f are conjugates of each other whatever the signals; the other bins are not demixed, inactive ones are silent; the misfit leaves out the bins above F/2; the shrinking does not threshold, so nothing is made sparse.)", "quantifier": "all signals, sets of active bins, initial filters and numbers of iterations; all transfer functions and parameters of sparir", "why_tests_cant": "all runs and all sets of active bins", "anchors": ["pyroomacoustics/bss/sparseauxiva.py:sparseauxiva", "pyroomacoustics/bss/common.py:sparir"]}
{"id": "C141", "title": "Anechoic rooms, randomised image sources and the direct SNR", "statement": "Wherever the source and the microphones of an AnechoicRoom are, it has one image source, the source itself, undamped and visible from every microphone, and the response is a single pulse at the travel time with amplitude one over the distance; get_bbox is the smallest box with all microphones and sources. The randomised image method moves every coordinate of an image source by at most max_rand_disp, hence its distance to any microphone by at most sqrt(dim) times that, and leaves orders, dampings, directions and visibility alone. A microphone outside the room hears no image source. direct_snr is the power of the first source's signal attenuated by 1/(4 pi d) over the noise variance. (Exceptions proved: the direct path is displaced too; direct_snr of other sources uses the power of the first; it is 16 pi^2 times smaller than in the simulated signals.)", "quantifier": "all positions, numbers of bands, engine outputs and random draws", "why_tests_cant": "all positions and all random draws", "anchors": ["pyroomacoustics/room.py:Room.image_source_model", "pyroomacoustics/room.py:AnechoicRoom", "pyroomacoustics/room.py:Room.direct_snr"]}
{"id": "C142", "title": "Walls that can obstruct are those not on the convex hull", "statement": "For every polygonal or polyhedral room whose corners belong to two walls or more, find_non_convex_walls returns a wall only when each facet of the convex hull is away from one of its corners; a wall left out has all corners on one facet, up to its number of corners times the tolerance, and, when centroids are either on a facet or away from it by the tolerance, the walls returned are exactly those contained in no facet. A wall left out then cannot stand between two points of the room: a segment between points of the hull that meets it lies in its plane. (Exception proved: the tolerance is an area in two dimensions, so all walls of an L-shaped room of 3 mm are left out although two of them hide points from each other.)", "quantifier": "all rooms in two and three dimensions, all facets that support the corners, all segments", "why_tests_cant": "all shapes of rooms and all segments in them", "anchors": ["pyroomacoustics/room.py:find_non_convex_walls"]}
{"id": "C143", "title": "Sine sweeps for measurements", "statement": "exponential_sweep samples a sine, from phase zero, whose frequency starts at the larger of f_lo and 1 Hz and grows by equal factors in equal times to the upper frequency at the end of the signal; linear_sweep one whose frequency moves at a constant rate and gets there after T seconds. The upper frequency is capped at fs/2, negative values count from fs/2, and a band with its lower end above the upper one is refused; the default is the upward sweep reversed. window multiplies the first and last n samples by the same squared-sine fade from zero and leaves the rest. (Exceptions proved: an exponential sweep with a single frequency is NaN; a fade below one sample raises; frequencies are in hertz, not in fractions of fs as documented.)", "quantifier": "all durations, sampling frequencies, bands and fades", "why_tests_cant": "all parameters and all samples", "anchors": ["pyroomacoustics/experimental/signals.py:window", "pyroomacoustics/experimental/signals.py:exponential_sweep", "pyroomacoustics/experimental/signals.py:linear_sweep"]}
{"id": "C144", "title": "Wiener deconvolution", "statement": "wiener_deconvolve, for a test signal whose spectrum vanishes in no bin, returns the response whose spectrum is the quotient of the spectra of recording and test signal times real gains; among all combinations of the Wiener gains of the grid of signal-to-noise ratios (from noise_variance, let_n_points and let_div_base), these gains take away the least energy from the recording. A bin where the test signal vanishes gives NaN or an exception. Without noise, or when the spectrum of the test signal is flat, the result is the plain quotient, so a recording that holds the whole response gives it back exactly, cut to the length asked for. (Exception proved: for an impulse as the test signal the noise variance has no effect at all, however large.)", "quantifier": "all recordings, test signals, lengths, noise variances >= 0 and grids with a positive base", "why_tests_cant": "all signals and all grids; a minimum over all weights", "anchors": ["pyroomacoustics/experimental/deconvolution.py:wiener_deconvolve"]}
{"id": "C145", "title": "Options of the ray tracer", "statement": "After any sequence of calls of set_ray_tracing, unset_ray_tracing and set_sound_speed on a new room, the engine has the parameters of the room, and a bin of the energy histograms is a whole number of samples. set_ray_tracing takes the largest whole number of samples not longer than hist_bin_size, so less than one sample is lost and whole numbers of samples are kept. set_ray_tracing switches ray tracing on with the options given, unset_ray_tracing switches it off and keeps the options, set_sound_speed changes only the speed. The default number of rays is the largest for which a receiver is hit, on average, at most 20 times per bin; a number that is given is kept. (Exceptions proved: a bin shorter than a sample raises, or gives bins of width zero when the number of rays is given; for a small enough room the default is not a single ray, and ray tracing raises.)", "quantifier": "all rooms, sampling frequencies, radii, bins and numbers of rays; all sequences of calls", "why_tests_cant": "all parameters and all sequences of calls", "anchors": ["pyroomacoustics/room.py:Room.set_ray_tracing", "pyroomacoustics/room.py:Room._set_ray_tracing_options", "pyroomacoustics/room.py:Room.unset_ray_tracing", "pyroomacoustics/room.py:Room._update_room_engine_params"]}
{"id": "C146", "title": "Coherent signal subspaces", "statement": "The focusing matrix of a bin turns the steering vectors of the given directions at this bin into those at the reference bin. When the sources are grid points, not fully correlated, their steering vectors are independent and no other grid point is in their span, and the initial search of every bin finds them, then after any number of iterations the spectrum of CSSM without noise, and of WAVES in white noise of any level, is infinite exactly at the directions of the sources. (Exception proved: once a bin with too few peaks is dropped, the covariances of the remaining bins are taken at the wrong positions, and a single source without noise may be lost.)", "quantifier": "all arrays, grids, bins, signals, source directions, noise levels and numbers of iterations; every numpy.linalg.inv, eigh and svd that meets its specification; every peak search that returns the sources", "why_tests_cant": "all arrays, signals and numbers of iterations; tests locate a few simulated sources", "anchors": ["pyroomacoustics/doa/cssm.py:CSSM._process", "pyroomacoustics/doa/cssm.py:CSSM._coherent_sum", "pyroomacoustics/doa/waves.py:WAVES._process", "pyroomacoustics/doa/waves.py:WAVES._construct_waves_matrix"]}
{"id": "C147", "title": "Test of orthogonality of projected subspaces", "statement": "TOPS gives an infinite value to a direction exactly when some combination of the steering vectors of the sources at the reference bin is turned by the phases of the direction into combinations of those at the other bins. When the selected bins are the first bins of the transform, in order, the value is infinite at every source, at any level of white noise. (Exception proved: for any other bins, as for the default range, the phases of bin number j are combined with the j-th selected bin; with bins 1 and 2 a source without noise is missed and the only infinite value is at a direction without a source. The last selected bin is never used.)", "quantifier": "all arrays, far-field grids, signals, source directions, noise levels and bins, with at least as many tests as sources; every numpy.argmax, eigh and svdvals that meets its specification", "why_tests_cant": "all arrays, directions and bins; a test locates one simulated source within a tolerance", "anchors": ["pyroomacoustics/doa/tops.py:TOPS._process"]}
{"id": "C148", "title": "Directions from finite rate of innovation (FRIDA)", "statement": "With visibilities, on planar arrays, without updates of the mapping: (1) the frames used are those whose power, averaged over the microphones, exceeds that of the average signal by more than the margin times the noise floor, and when the covariance of the chosen frames is that of uncorrelated far away sources in noise that is uncorrelated between microphones, the visibility of each pair of microphones is the sum over the sources of power times a phase, whatever the noise; (2) the mapping takes the Fourier coefficients of the sources to these visibilities, up to the error of the truncated series of Bessel functions times the sum of the powers; (3) the real half vectors stand for exactly the Hermitian sequences, and the two shrunk matrices both are the convolution of filter and samples; (4) the filter returned is the one with the least error of all found from all starts, each found minimises the objective of the step before it, the samples of every band are annihilated by the filter and fit the measurements at least as well as any other annihilated samples, and the square of the error is what the constraint costs; (5) if the measurements are exactly those of K sources at different azimuths, the annihilating filter of the sources has error zero, and whenever the search ends with error zero the azimuths returned are exactly those of the sources. (Exception proved: the mapping is kept from the first call, so that a later call with other frequencies uses the wrong one.)", "quantifier": "all planar arrays, frequencies, numbers of sources, bands and starts, powers and noise; every linalg.solve, linalg.inv and np.roots that meets its specification", "why_tests_cant": "all arrays, directions and powers; a test locates one simulated source within a tolerance", "anchors": ["pyroomacoustics/doa/frida.py:FRIDA._process", "pyroomacoustics/doa/frida.py:FRIDA._visibilities", "pyroomacoustics/doa/tools_fri_doa_plane.py:pt_src_recon_multiband", "pyroomacoustics/doa/tools_fri_doa_plane.py:dirac_recon_ri_half_multiband_lu", "pyroomacoustics/doa/tools_fri_doa_plane.py:make_G", "pyroomacoustics/doa/tools_fri_doa_plane.py:compute_b"]}
{"id": "C149", "title": "Sources, microphones and ray tracing of a room", "statement": "Whatever calls add sources and microphones and change options, the engine has the microphones of the array in the same order. When the microphones are added after the last change of the bins or of the speed of sound, ray tracing gives for every microphone and source one histogram for each direction told apart (one direction without directivity), which holds for every band exactly the energies of the hits of that source's rays at that microphone, from that direction, that arrive during the bin, and nothing of other sources or of former calls; rays leave in the Fibonacci directions with energy one, or as the directivity of the source says. Every room impulse response is the sum of the part from images and the part from rays of the pair, the shorter padded with zeros. A source inside the room becomes the last source, a microphone the last microphone, nothing else changes. When all microphones exist before the first ray tracing, no search tree of directions is used or deleted that is not alive and none is left in the end.", "quantifier": "all sequences of calls, rooms, sources, microphones, directivities, options and hits; every nearest neighbour search that meets its specification; every growth of the vector of microphones", "why_tests_cant": "all sequences of calls and all hits; a test simulates one room with one set of options", "anchors": ["pyroomacoustics/room.py:Room.ray_tracing", "pyroomacoustics/room.py:Room.compute_rir", "pyroomacoustics/room.py:Room.add_source", "pyroomacoustics/room.py:Room.add_microphone", "pyroomacoustics/room.py:Room.add_microphone_array", "pyroomacoustics/libroom_src/room.hpp:add_mic", "pyroomacoustics/libroom_src/microphone.hpp:Microphone"]}
{"id": "C150", "title": "Short time Fourier transform of several channels", "statement": "An STFT object with two or more channels treats every channel alike and apart: for every sequence of calls (zero padding, reset, filters with one column or one per channel, analysis, process, synthesis; streaming or not; with or without a fixed number of frames) it raises exactly when a mono object that gets one channel of the arrays does, and otherwise the spectra, the signals and the caller's arrays afterwards are, channel by channel, those of the mono object. The one-shot functions likewise on signals with two or more channels and on spectra with an axis for the frames.", "quantifier": "all numbers of channels, frame sizes, hops, windows, paddings, signals and sequences of calls", "why_tests_cant": "all sequences of calls and all channels; a test compares a few signals", "anchors": ["pyroomacoustics/transform/stft.py:STFT", "pyroomacoustics/transform/stft.py:analysis", "pyroomacoustics/transform/stft.py:synthesis", "pyroomacoustics/transform/dft.py:DFT"]}
{"id": "C151", "title": "Emissions with full covariance matrices", "statement": "GaussianEmission: the density of a frame in a state is the normal density with the state's mean and covariance, whatever eigenvectors the linear algebra library returns, and for diagonal covariances the one of CircularGaussianEmission; densities are returned exactly when all covariances are positive definite and the frames have the right number of components. update_parameters gives each state the mean and covariance that maximise the weighted log-density of the frames among all means and positive definite covariances; the covariance is symmetric, non-negative, and positive definite unless the frames with weight lie in a hyperplane. Training a hidden Markov model with it reports at each iteration the log-likelihood of the current model and never loses likelihood while covariances stay positive definite. Random initial covariances are positive definite; initialised from examples it gives the same densities as CircularGaussianEmission.", "quantifier": "all numbers of states and components, all frames, weights, means, covariances and numbers of iterations", "why_tests_cant": "statements about all parameters (a maximum) and all training sets; tests try a few", "anchors": ["pyroomacoustics/recognition.py:GaussianEmission", "pyroomacoustics/recognition.py:HMM.fit"]}
{"id": "C152", "title": "Filters with given octave band amplitudes", "statement": "OctaveBandsFactory.synthesis returns, for one amplitude per band, a filter of n_fft taps whose frequency response is the sum of the bands' magnitudes times their amplitudes, delayed by (n_fft-1)//2 samples; with cosine bands the gain lies between the smallest and the largest amplitude, at the centre of an octave band it is the amplitude of that band, and equal amplitudes give an impulse. With min_phase the magnitudes are the same below half the sampling frequency, not less than 1e-7. The minimum phase band filters of the factory have the bands' magnitudes, not less than 0.02. In a simulation with impulse response directivities and walls alike in all bands the octave band response is the single band response up to a shift by n_fft//2 - (n_fft-1)//2 samples.", "quantifier": "all banks, filter lengths, amplitudes, bins, rooms and sources", "why_tests_cant": "statements about every amplitude and frequency, and about the agreement of two different code paths; tests look at a few filters", "anchors": ["pyroomacoustics/acoustics.py:OctaveBandsFactory.synthesis", "pyroomacoustics/acoustics.py:OctaveBandsFactory._make_filters", "pyroomacoustics/simulation/ism.py:compute_ism_rir"]}
{"id": "C153", "title": "Signals with noise of a given level", "statement": "create_noisy_signal without an offset returns the given signal and noise, each times a positive number, such that their powers differ by exactly snr decibels, and their sum less its mean, where the largest absolute value of the sum is one. It refuses noise of another sampling rate or shorter than the signal, and returns for all others that are not silent. rms is the root of the mean square, normalize_pwr gives a signal the power of another by a factor, and dB is the inverse of the exponential.", "quantifier": "all signals, noises, numbers of channels and levels", "why_tests_cant": "statements about every signal and level; the documentation promises results that only some inputs contradict", "anchors": ["pyroomacoustics/utilities.py:create_noisy_signal", "pyroomacoustics/utilities.py:rms", "pyroomacoustics/utilities.py:normalize_pwr", "pyroomacoustics/utilities.py:dB"]}
{"id": "C154", "title": "Directivity files", "statement": "open_sofa_file returns the impulse responses of the file for every source and microphone, resampled to the rate asked for, and one label per source or per microphone if the data base has labels. Positions in Cartesian coordinates must be in metres; they are returned as they are, and the angles belong to the same points. Positions in spherical coordinates, in degrees or radians, of a file with a position below the horizon are the points of the SOFA standard (azimuth, elevation, distance), in both formats. The positions of the DIRPAT files are reordered, each kept once, to follow the responses. Other types, units and formats are refused.", "quantifier": "all files, positions, units, rates and labels", "why_tests_cant": "statements about every file; tests read the few files of the data base", "anchors": ["pyroomacoustics/directivities/sofa.py:open_sofa_file", "pyroomacoustics/directivities/sofa.py:_parse_locations", "pyroomacoustics/directivities/sofa.py:_read_dirpat"]}
{"id": "C155", "title": "Cleaned covariances and the dirty image of FRIDA", "statement": "With low_rank_cleaning the covariance is replaced by a Hermitian positive one of rank num_src; for fewer sources than microphones in white noise of equal power the noise is removed exactly, so the visibilities of uncorrelated sources are the same with and without cleaning. The dirty image of such visibilities is real, shows every source as the beam of the array around its azimuth, nowhere exceeds the total power, and for one source reaches it exactly at the azimuths the array cannot tell from that of the source. Raw signals are averaged over the frames as they are, which keeps a stationary tone whose hop is a multiple of the FFT length.", "quantifier": "all arrays, frequencies, sources, noise, eigendecompositions, azimuths and frames", "why_tests_cant": "statements about every array and every signal; tests run FRIDA on a few simulated mixtures", "anchors": ["pyroomacoustics/doa/frida.py:FRIDA._visibilities", "pyroomacoustics/doa/frida.py:FRIDA._gen_dirty_img", "pyroomacoustics/doa/frida.py:FRIDA._raw_average"]}
{"id": "C156", "title": "Fractional delay filters by convex optimisation", "statement": "multirate.frac_delay returns a filter whose largest distance from an ideal delay, over int(C N) equally spaced frequencies from 0 to w_max pi, is the smallest of all filters with N taps; every such filter may be returned. It is never worse than silence. For a whole number of samples that fits in the filter it is the shifted unit impulse, and the filters of the delays delta and N - 1 - delta are mirror images. Without a frequency (C N < 1) there is no filter.", "quantifier": "all delays, numbers of taps, bandwidths and numbers of constraints", "why_tests_cant": "an optimum over all filters; tests would need the optional solver and can compare only with some filters", "anchors": ["pyroomacoustics/multirate.py:frac_delay"]}
{"id": "C157", "title": "Independent vector analysis started from eigenvectors", "statement": "auxiva(init_eig=True) with as many sources as microphones starts from a matrix of conjugate eigenvectors of the covariance, smallest eigenvalue first, which keeps the power of every frame at every frequency. With fewer sources than microphones it raises. Conjugate eigenvectors given as the rows of W0 make the outputs at the start uncorrelated, with the eigenvalues as powers.", "quantifier": "all inputs, numbers of channels and sources, eigendecompositions", "why_tests_cant": "statements about every input; the tests of the package never set init_eig", "anchors": ["pyroomacoustics/bss/auxiva.py:auxiva"]}
{"id": "C158", "title": "Amplitudes of FRIDA and the update of its mapping", "statement": "FRIDA returns, for visibilities that are exact for sources at the azimuths found, the powers of the sources in every band, with zero error, when the array tells the sources apart. An update of the mapping from Fourier coefficients to visibilities makes it exact for sources at the azimuths found, whatever the order of the series, and leaves it as it was on everything orthogonal to them. With several passes the azimuths and amplitudes returned are those of the first pass with the smallest error.", "quantifier": "all arrays, bands, visibilities, azimuths, powers, orders of the series, mappings and numbers of passes", "why_tests_cant": "statements about every set of sources, every mapping and every number of passes; tests compare a few azimuths with a tolerance and never look at amplitudes", "anchors": ["pyroomacoustics/doa/tools_fri_doa_plane.py:pt_src_recon_multiband", "pyroomacoustics/doa/tools_fri_doa_plane.py:mtx_updated_G_multiband_new"]}
{"id": "C159", "title": "The number of threads", "statement": "The number of threads used to build impulse responses is the one last set with constants.set('num_threads', n); without that it is PRA_NUM_THREADS at the import of the package, and without that the number of processors. The import raises when PRA_NUM_THREADS is not a number or when neither is known.", "quantifier": "all environments, numbers of processors and sequences of constants.set", "why_tests_cant": "statements about every environment and every sequence of settings; the value is fixed when the package is imported, before any test runs", "anchors": ["pyroomacoustics/parameters.py:get_num_threads", "pyroomacoustics/parameters.py:Constants"]}
{"id": "C160", "title": "Air absorption of a room", "statement": "A room built with air_absorption=True, or after set_air_absorption(), uses the coefficients of the documented table for its temperature and humidity in its octave bands from 125 Hz, continued linearly above 8 kHz. Coefficients given by the user hold for the lowest bands, limited to the range from 0 to 1; a single one holds for every band; more coefficients than bands raise.", "quantifier": "all temperatures, humidities, sampling frequencies, numbers of bands and lists of coefficients", "why_tests_cant": "statements about every temperature, humidity and list of coefficients; tests switch air absorption on in one room", "anchors": ["pyroomacoustics/room.py:Room.set_air_absorption", "pyroomacoustics/acoustics.py:BaseOctaveFilterBank.__call__", "pyroomacoustics/parameters.py:Physics.get_air_absorption"]}
{"id": "C161", "title": "Walls by name", "statement": "get_wall_by_name returns the wall of a room that has the name, the last one if several have it, and raises when none has it. Rooms made from corners have walls wall_0, wall_1, ... in the order of the corners; every wall of a shoebox is found by its name and has the material given for that name. After extrude the old names give the sides on the same edges.", "quantifier": "all rooms, names, numbers of corners and materials", "why_tests_cant": "statements about every list of walls and every name; no test calls get_wall_by_name after extrude", "anchors": ["pyroomacoustics/room.py:Room.get_wall_by_name", "pyroomacoustics/room.py:Room._wall_mapping", "pyroomacoustics/room.py:Room.extrude", "pyroomacoustics/libroom_src/room.cpp:make_shoebox_walls"]}
{"id": "C162", "title": "Amplitudes of FRIDA from raw signals", "statement": "FRIDA(signal_type='raw') returns, for averages of microphone signals that are exact for waves from the azimuths found, the complex amplitudes of the waves in every band, with zero error, when the array tells the waves apart. Without updates of the mapping the azimuths and amplitudes are those of one pass.", "quantifier": "all arrays, bands, signals, azimuths and amplitudes", "why_tests_cant": "statements about every array and every set of sources; tests never use raw signals with updates", "anchors": ["pyroomacoustics/doa/tools_fri_doa_plane.py:pt_src_recon_multiband", "pyroomacoustics/doa/tools_fri_doa_plane.py:build_mtx_raw_amp", "pyroomacoustics/doa/frida.py:FRIDA"]}
