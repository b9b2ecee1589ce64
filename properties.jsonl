{"id": "C01", "title": "KNN search returns exactly the best K, best first", "statement": "For any target vector, pool and K>=0, the linear K-nearest (or K-furthest) search returns a list of distinct pool positions, best score first, of length min(K, number of rankable pool vectors); no rankable position that is not returned scores better than a returned one. A position is rankable when the distance function gives no error and its score is strictly better than the worst-score sentinel (so NaN scores are never returned).", "quantifier": "every target, pool of any length, K >= 0, ascending/descending and every distance function over IEEE binary64 (NaN, infinities and signed zeros included)", "why_tests_cant": "The claim ranges over all pools, all K and all IEEE values including NaN/ties; tests can only sample a few orderings.", "anchors": ["pkg/searchutils/knn.go:KNNBrute", "pkg/searchutils/knn.go:bubble", "pkg/searchutils/knn.go:resItems2Indexes"]}
{"id": "C02", "title": "KNN search only names existing, dimension-compatible pool entries and fails only for negative K", "statement": "The four prefab searches (KNNCos, KFNCos, KNNEuc, KFNEuc) never crash for K>=0 and every returned position exists in the pool and holds a vector of the target's dimension; for K<0 they always panic.", "quantifier": "every target, pool and K over IEEE binary64", "why_tests_cant": "Out-of-range positions would crash callers only on particular pools and K.", "anchors": ["pkg/searchutils/knn.go:KNNCos", "pkg/searchutils/knn.go:KFNCos", "pkg/searchutils/knn.go:KNNEuc", "pkg/searchutils/knn.go:KFNEuc"]}
{"id": "C03", "title": "Every stored vector of the right dimension can be found by a cosine search", "statement": "A cosine nearest-neighbour search with K at least the pool size returns every pool vector whose dimension matches the target. (Refuted: comparing a zero vector with a non-zero one yields NaN, because only the both-zero case is guarded, and NaN is silently dropped. What holds: it returns exactly the vectors whose score is a number.)", "quantifier": "every target and pool over IEEE binary64", "why_tests_cant": "Needs the exact set of inputs for which the score is NaN, an unbounded input space.", "anchors": ["pkg/mathutils/distance.go:CosineSimilarity", "pkg/searchutils/knn.go:KNNCos"]}
{"id": "C04", "title": "EuclideanDistance is the Euclidean distance", "statement": "EuclideanDistance(v1,v2) equals the square root of the sum of squared coordinate differences. (Refuted: it sums the square roots of the individual squares, which is the Manhattan distance; over the reals it equals the sum of absolute differences, and nearest-neighbour rankings based on it differ from Euclidean rankings.)", "quantifier": "all pairs of equal-length vectors", "why_tests_cant": "A formula identity over all real vectors of all dimensions.", "anchors": ["pkg/mathutils/distance.go:EuclideanDistance", "pkg/searchutils/knn.go:KNNEuc"]}
{"id": "C05", "title": "Distance functions are well-behaved measures", "statement": "Over the reals: cosine similarity of two vectors with non-zero norm lies in [-1,1], is symmetric, is 1 for a vector with itself and invariant under positive scaling; the distance function is non-negative, symmetric, zero exactly on equal vectors, and satisfies the triangle inequality.", "quantifier": "all real vectors of equal, arbitrary dimension", "why_tests_cant": "Inequalities over all real vectors.", "anchors": ["pkg/mathutils/distance.go:CosineSimilarity", "pkg/mathutils/distance.go:EuclideanDistance", "pkg/mathutils/distance.go:norm"]}
{"id": "C06", "title": "Distance functions report an error exactly on dimension mismatch", "statement": "CosineSimilarity and EuclideanDistance return an error if and only if the two vectors have different lengths, whatever the coordinates.", "quantifier": "all pairs of vectors over any number system", "why_tests_cant": "All lengths and values.", "anchors": ["pkg/mathutils/distance.go:CosineSimilarity", "pkg/mathutils/distance.go:EuclideanDistance"]}
{"id": "C07", "title": "VecMean computes the arithmetic mean or reports failure", "statement": "VecMean over a non-empty sequence of equal-length vectors succeeds and returns, per coordinate, the exact sum divided by the count (exact arithmetic); it fails iff the sequence is empty or contains two vectors of different length.", "quantifier": "all finite sequences of vectors", "why_tests_cant": "Induction over the sequence length; rounding is excluded by working in an exact field.", "anchors": ["pkg/mathutils/vectools.go:VecMean"]}
{"id": "C08", "title": "Vector helpers are dimension-preserving and algebraically consistent", "statement": "VecAdd/VecSub succeed iff lengths agree and keep the length; scaling keeps the length; in exact arithmetic subtracting what was added and dividing by what was multiplied (non-zero) restores the vector; VecEq holds iff lengths and all coordinates agree, VecIn iff some member is VecEq.", "quantifier": "all vectors and scalars", "why_tests_cant": "All lengths and values.", "anchors": ["pkg/mathutils/vectools.go:VecAdd", "pkg/mathutils/vectools.go:VecSub", "pkg/mathutils/vectools.go:VecMulScalar", "pkg/mathutils/vectools.go:VecDivScalar", "pkg/mathutils/vectools.go:VecEq", "pkg/mathutils/vectools.go:VecIn"]}
{"id": "C09", "title": "A centroid accepts a datapoint iff it matches the dimension and is not expired", "statement": "Adding a datapoint to a centroid returns true exactly when its vector has the centroid's dimension and it is not expired at that instant; on true the datapoint is stored exactly once after the existing ones, on false nothing changes.", "quantifier": "all centroids, datapoints and clock readings", "why_tests_cant": "Unbounded centroid contents and clock values.", "anchors": ["pkg/kmeans/centroid/centroid.go:AddDataPoint", "pkg/kmeans/centroid/centroid.go:addDataPoint", "pkg/kmeans/common/datapoint.go:Expired"]}
{"id": "C10", "title": "Centroid operations never lose or invent an unexpired datapoint", "statement": "For every centroid operation (add, drain unordered/ordered, expire, memory trim, move vector, nearest lookup with or without drain) the multiset of datapoints before (plus the accepted one) equals stored-after plus returned-and-removed plus a set of dropped datapoints, each of which was observed expired at a clock reading made during that very operation.", "quantifier": "all centroids, operations, arguments and all clock behaviours (every expiry check may read a different time)", "why_tests_cant": "All interleavings of expiry with the operation's internal reads.", "anchors": ["pkg/kmeans/centroid/centroid.go:DrainUnordered", "pkg/kmeans/centroid/centroid.go:DrainOrdered", "pkg/kmeans/centroid/centroid.go:Expire", "pkg/kmeans/centroid/centroid.go:MemTrim", "pkg/kmeans/centroid/centroid.go:MoveVector", "pkg/kmeans/centroid/centroid.go:KNNLookup"]}
{"id": "C11", "title": "Expired datapoints are never handed out", "statement": "Every datapoint returned by a drain or by a nearest lookup was found unexpired by a clock reading made during the call.", "quantifier": "all states, arguments and clocks", "why_tests_cant": "Depends on the instant of each clock reading.", "anchors": ["pkg/kmeans/centroid/centroid.go:DrainUnordered", "pkg/kmeans/centroid/centroid.go:DrainOrdered", "pkg/kmeans/centroid/centroid.go:KNNLookup", "pkg/kmeans/centroid/centroid.go:dataPointVecGenerator"]}
{"id": "C12", "title": "A centroid's vector is the mean of its datapoints", "statement": "Starting from an empty centroid, after any sequence of add, drain, expire, lookup and move-vector operations, if the centroid holds datapoints, its vector is exactly their arithmetic mean (exact arithmetic).", "quantifier": "all operation sequences, all datapoints of the centroid's dimension, all clocks", "why_tests_cant": "An inductive invariant over unbounded histories.", "anchors": ["pkg/kmeans/centroid/centroid.go:addDataPoint", "pkg/kmeans/centroid/centroid.go:rmDataPoint", "pkg/kmeans/centroid/centroid.go:MoveVector"]}
{"id": "C13", "title": "MemTrim keeps the centroid's vector the mean of its datapoints", "statement": "Memory trimming only reduces capacity and expires data; the centroid's vector remains the mean of what is stored. (Refuted: the trim drains every datapoint while adjusting the vector and then puts the datapoints back without re-adjusting, leaving the vector equal to the last stored datapoint. Proved: exactly that value.)", "quantifier": "all centroids", "why_tests_cant": "The defect needs at least two distinct datapoints and inspection of the vector.", "anchors": ["pkg/kmeans/centroid/centroid.go:MemTrim", "pkg/kmeans/centroid/centroid.go:DrainUnordered"]}
{"id": "C14", "title": "Move-vector repairs any centroid", "statement": "From an arbitrary centroid vector, move-vector on a centroid with unexpired datapoints of one dimension sets its vector to their exact mean and returns true; it returns false when nothing unexpired is stored, and the centroid is then empty.", "quantifier": "all centroids and clocks", "why_tests_cant": "All states, including corrupted ones.", "anchors": ["pkg/kmeans/centroid/centroid.go:MoveVector", "pkg/mathutils/vectools.go:VecMean"]}
{"id": "C15", "title": "Mean maintenance survives IEEE rounding and overflow", "statement": "The stored vector equals the mean of the datapoints, up to rounding, also in IEEE binary64. (Refuted: large finite coordinates overflow to infinity, and the infinity/NaN persists after the offending datapoints are removed. What holds: if all coordinates are at most B in absolute value, with 2^-1022 <= B <= 2^990, and at most 2^24 datapoints have been accepted, then after any sequence of operations without MemTrim every coordinate of the vector is finite and differs from the exact mean by at most 22 * a * a / n * 2^-53 * B, where a is the number of datapoints accepted so far and n the number stored.)", "quantifier": "all binary64 inputs", "why_tests_cant": "Requires reasoning over the floating-point corner cases.", "anchors": ["pkg/kmeans/centroid/centroid.go:addDataPoint", "pkg/kmeans/centroid/centroid.go:rmDataPoint"]}
{"id": "C16", "title": "Drain-unordered on a centroid takes the oldest unexpired datapoints", "statement": "DrainUnordered(n), n>=0, returns at most n datapoints; they are the unexpired ones of a prefix of the stored list in order, the stored list becomes the corresponding suffix, and fewer than n are returned only if the centroid ends up empty. Negative n panics.", "quantifier": "all centroids, n, clocks", "why_tests_cant": "All lengths and expiry patterns.", "anchors": ["pkg/kmeans/centroid/centroid.go:DrainUnordered"]}
{"id": "C17", "title": "Drain-ordered removes exactly the worst-fitting datapoints", "statement": "DrainOrdered(n) returns, in the order given by the furthest-neighbour search against the centroid's vector at call time, the selected datapoints among those that survive expiry, removes exactly those and keeps the others in order.", "quantifier": "all centroids, n>=0, clocks, any search function meeting the search contract", "why_tests_cant": "Index shifting during removal and expiry must be right for every selection.", "anchors": ["pkg/kmeans/centroid/centroid.go:DrainOrdered", "pkg/kmeans/centroid/centroid.go:rmDataPoint"]}
{"id": "C18", "title": "Nearest lookup in a centroid returns exactly the nearest datapoints and changes nothing else", "statement": "KNNLookup(vec,k,drain) returns the surviving datapoints selected by the nearest search, best first; without drain the stored datapoints are exactly the survivors of expiry; with drain exactly the returned ones are additionally removed, the rest keep their order.", "quantifier": "all centroids, vec, k>=0, clocks, search functions meeting the contract", "why_tests_cant": "As C17.", "anchors": ["pkg/kmeans/centroid/centroid.go:KNNLookup"]}
{"id": "C19", "title": "Expire removes exactly the expired datapoints", "statement": "After Expire the stored list is the original list, in order, without exactly those datapoints that were expired when examined; every datapoint is examined exactly once. A datapoint is expired at a time iff it has expiry enabled and its expiry time lies before that time.", "quantifier": "all centroids and clocks", "why_tests_cant": "All expiry patterns, consecutive expirations included.", "anchors": ["pkg/kmeans/centroid/centroid.go:Expire"]}
{"id": "C20", "title": "Redistribution between centroids loses nothing", "statement": "DistributeDataPoints over any receivers (the centroid itself included, receivers may reject) conserves the multiset of all datapoints over all participating centroids up to datapoints that were observed expired during the call; with no receivers nothing changes.", "quantifier": "all centroids, receivers (aliasing self allowed), n>=0, clocks", "why_tests_cant": "Aliasing of source and receivers and rejection paths.", "anchors": ["pkg/kmeans/centroid/centroid.go:DistributeDataPoints", "pkg/kmeans/centroidmanager/cmanager.go:DistributeDataPoints", "pkg/kmeans/centroidmanager/cmanager.go:DistributeDataPointsInternal"]}
{"id": "C21", "title": "Adding to a manager stores the datapoint exactly once, near the nearest centroid", "statement": "When AddDataPoint on a manager returns true the stored multiset grows by exactly that datapoint (up to datapoints observed expired during the call); when it returns false the manager is unchanged. If centroids exist, the datapoint goes to the centroid chosen first by the nearest search.", "quantifier": "all managers, datapoints, clocks, thresholds", "why_tests_cant": "All states including those that trigger a split.", "anchors": ["pkg/kmeans/centroidmanager/cmanager.go:AddDataPoint", "pkg/kmeans/centroidmanager/cmanager.go:splitCentroid"]}
{"id": "C22", "title": "Drain load is divided evenly over the centroids", "statement": "For n>=1 the per-centroid portions sum to min(n, total stored), never exceed what a centroid holds, and are even: a centroid's portion is smaller than another's minus one only if it gives everything it holds.", "quantifier": "all lists of centroid sizes and all n>=1", "why_tests_cant": "All size distributions.", "anchors": ["pkg/kmeans/centroidmanager/cmanager.go:centroidDataPointPortions"]}
{"id": "C23", "title": "Draining n datapoints returns at most n", "statement": "DrainUnordered(n)/DrainOrdered(n) on a manager return at most n datapoints, for n>=1 regardless of map iteration order; and exactly min(n,stored) if nothing expires (unordered). (Refuted for n=0: one datapoint is drained when the first centroid is non-empty.)", "quantifier": "all managers, n, map iteration orders, clocks", "why_tests_cant": "Map order randomisation and all sizes.", "anchors": ["pkg/kmeans/centroidmanager/cmanager.go:DrainUnordered", "pkg/kmeans/centroidmanager/cmanager.go:DrainOrdered", "pkg/kmeans/centroidmanager/cmanager.go:centroidDataPointPortions"]}
{"id": "C24", "title": "A manager stays dimension-consistent", "statement": "In every reachable manager all centroids and all datapoints they hold share one dimension, which is the manager vector's dimension whenever a centroid exists.", "quantifier": "every sequence of operations from a fresh manager, all arguments and clocks", "why_tests_cant": "Inductive invariant over unbounded histories.", "anchors": ["pkg/kmeans/centroidmanager/cmanager.go:AddDataPoint", "pkg/kmeans/centroidmanager/cmanager.go:MemTrim", "pkg/kmeans/centroidmanager/cmanager.go:MergeCentroids", "pkg/kmeans/centroidmanager/cmanager.go:NearestCentroids"]}
{"id": "C25", "title": "Any history of manager operations conserves data", "statement": "After any sequence of manager operations from a fresh manager: datapoints accepted by adds (and centroids attached by steals) = stored + returned by drains + dropped, and every dropped datapoint was observed expired during the history.", "quantifier": "every finite sequence of operations with non-negative counts, all map orders and clocks", "why_tests_cant": "Unbounded histories.", "anchors": ["pkg/kmeans/centroidmanager/cmanager.go"]}
{"id": "C26", "title": "Manager operations never crash or hang on non-negative arguments", "statement": "Every sequence of manager operations with non-negative counts from a fresh manager runs to completion without a panic and without non-termination; a negative drain count panics.", "quantifier": "every operation sequence, all arguments, clocks and map orders", "why_tests_cant": "Index-out-of-range and loop termination over all states.", "anchors": ["pkg/kmeans/centroidmanager/cmanager.go", "pkg/kmeans/centroid/centroid.go"]}
{"id": "C27", "title": "The manager's vector is the mean of its centroids' vectors", "statement": "As documented, operations keep the manager's vector the mean of its centroids' vectors. (Proved in exact arithmetic for add without split, both drains, expire, lookup, move-vector, distribute, and centroid draining that leaves a centroid; refuted for splitting, memory trim and merging.)", "quantifier": "all histories of the respective operations, exact arithmetic", "why_tests_cant": "Inductive invariant; refutations need specific multi-step states.", "anchors": ["pkg/kmeans/centroidmanager/cmanager.go:prepVecUpdate", "pkg/kmeans/centroidmanager/cmanager.go:MemTrim", "pkg/kmeans/centroidmanager/cmanager.go:MergeCentroids", "pkg/kmeans/centroidmanager/cmanager.go:SplitCentroids", "pkg/kmeans/centroidmanager/cmanager.go:NearestCentroids"]}
{"id": "C28", "title": "Draining the last centroid leaves a usable manager vector", "statement": "After NearestCentroids with drain removes all centroids the manager vector is still a vector of numbers. (Refuted: division by zero makes every coordinate NaN, so cosine-based routing never selects this node again until a datapoint is placed there by other means.)", "quantifier": "all managers", "why_tests_cant": "Needs the boundary case of emptying the manager.", "anchors": ["pkg/kmeans/centroidmanager/cmanager.go:NearestCentroids"]}
{"id": "C29", "title": "Nearest-centroid retrieval removes exactly what it returns", "statement": "NearestCentroids(vec,n,drain) returns at most n centroids, best first; with drain exactly those are removed and the others keep their order, without drain the manager is unchanged; it reports false iff no centroid is rankable, and then nothing changes.", "quantifier": "all managers, vec, n>=0", "why_tests_cant": "Index shifting for every selection.", "anchors": ["pkg/kmeans/centroidmanager/cmanager.go:NearestCentroids"]}
{"id": "C30", "title": "Lookup on a manager returns at most k stored datapoints", "statement": "KNNLookup(vec,k,drain) on a manager returns at most k datapoints, each stored and unexpired when examined; without drain nothing but expired datapoints disappears; with drain exactly the returned ones disappear in addition.", "quantifier": "all managers, vec, k>=0, drain, clocks", "why_tests_cant": "All states and clocks.", "anchors": ["pkg/kmeans/centroidmanager/cmanager.go:KNNLookup"]}
{"id": "C31", "title": "Lookup finds k datapoints whenever k are stored", "statement": "If at least k unexpired datapoints of the query's dimension are stored, KNNLookup(vec,k) returns k. (Refuted: only the k nearest centroids are consulted and emptied centroids count among them. Proved: it holds when no rankable centroid is empty and all are rankable, and each centroid's datapoints are rankable.)", "quantifier": "all managers", "why_tests_cant": "Requires states with emptied centroids.", "anchors": ["pkg/kmeans/centroidmanager/cmanager.go:KNNLookup"]}
{"id": "C32", "title": "Auto-split bounds centroid size", "statement": "In a manager with split threshold T>=2 that only receives adds, every centroid holds fewer than T datapoints after each add; T=0 never splits.", "quantifier": "all sequences of adds, all T", "why_tests_cant": "Unbounded histories.", "anchors": ["pkg/kmeans/centroidmanager/cmanager.go:AddDataPoint", "pkg/kmeans/centroidmanager/cmanager.go:splitCentroid"]}
{"id": "C33", "title": "Splitting conserves data and halves the selected centroids", "statement": "SplitCentroids conserves the stored multiset (up to expired), leaves centroids not selected unchanged, and, when nothing expires, replaces each selected centroid of size L>=2 by ones of size L-L/2 and L/2.", "quantifier": "all managers and predicates", "why_tests_cant": "All sizes.", "anchors": ["pkg/kmeans/centroidmanager/cmanager.go:SplitCentroids", "pkg/kmeans/centroidmanager/cmanager.go:splitCentroid"]}
{"id": "C34", "title": "Merging conserves data and never deletes a centroid that holds data", "statement": "MergeCentroids conserves the stored multiset up to datapoints observed expired, for any selection predicate; every centroid it deletes was emptied into a surviving or later-merged one.", "quantifier": "all managers, predicates on centroid contents, clocks", "why_tests_cant": "Chained merges (a merge target later merged itself).", "anchors": ["pkg/kmeans/centroidmanager/cmanager.go:MergeCentroids"]}
{"id": "C35", "title": "Merge-all yields a single centroid", "statement": "With an always-true predicate and all centroid vectors mutually rankable, MergeCentroids leaves exactly one centroid.", "quantifier": "all non-empty managers whose search ranks all same-dimension vectors", "why_tests_cant": "All numbers of centroids.", "anchors": ["pkg/kmeans/centroidmanager/cmanager.go:MergeCentroids"]}
{"id": "C36", "title": "Reported sizes are the true sizes", "statement": "LenDP of a manager equals the number of stored datapoints; a server's metadata reports for every namespace exactly its number of centroids and datapoints.", "quantifier": "all servers", "why_tests_cant": "All states.", "anchors": ["pkg/kmeans/centroidmanager/cmanager.go:LenDP", "pkg/kmeans/rpc/server.go:Meta"]}
{"id": "C37", "title": "Namespaces are isolated", "statement": "A server request naming one namespace leaves the contents of every other namespace untouched and its result does not depend on other namespaces.", "quantifier": "all servers, requests and namespaces", "why_tests_cant": "All pairs of states.", "anchors": ["pkg/kmeans/rpc/server.go", "pkg/kmeans/rpc/rpc.go:CManagerTable"]}
{"id": "C38", "title": "Unknown namespaces are reported and not created", "statement": "Every namespaced request except add (and steal) on a namespace that does not exist returns a namespace error and leaves the server unchanged; on an existing namespace it returns no namespace error.", "quantifier": "all servers and requests", "why_tests_cant": "All requests and table contents.", "anchors": ["pkg/kmeans/rpc/server.go:handleNamespaceErr", "pkg/kmeans/rpc/rpc.go:Access"]}
{"id": "C39", "title": "An acknowledged add is stored", "statement": "If the server's AddDataPoint answers true, the datapoint is stored. (Refuted: the answer is unconditionally true, also for dimension mismatch, unrankable zero vectors and expired datapoints. Proved: exactly when it is stored, and that a first add to a namespace creates it.)", "quantifier": "all servers and datapoints", "why_tests_cant": "Requires rejected adds.", "anchors": ["pkg/kmeans/rpc/server.go:AddDataPoint"]}
{"id": "C40", "title": "Concurrent adds to one namespace are all kept", "statement": "Under every interleaving of concurrent add requests every acknowledged acceptable datapoint is stored. (Proved when the namespace already exists; refuted when two adds race to create the namespace: the later table insertion overwrites the first.)", "quantifier": "every interleaving of any number of requests", "why_tests_cant": "Scheduler interleavings.", "anchors": ["pkg/kmeans/rpc/server.go:AddDataPoint", "pkg/kmeans/rpc/rpc.go:Access", "pkg/kmeans/rpc/rpc.go:AddSlot"]}
{"id": "C41", "title": "Concurrent jobs never deadlock, crash on a mutex or see half-done work", "statement": "Any number of requests, HTTP calls and event loops, interleaved instruction by instruction (lock, read, compute, write back, unlock): each goroutine holds at most one mutex and none while it waits, no two hold the same, and whoever waits waits for one that can go on, so that if nobody can go on all have ended; nothing panics; without steals every state can be run to completion; and every finished run has the answers and the stored data of a run in which each critical section is one step, so no datapoint is lost or duplicated.", "quantifier": "every instruction-level interleaving of any number of jobs", "why_tests_cant": "Scheduler interleavings.", "anchors": ["pkg/kmeans/rpc/rpc.go:CManagerTable", "pkg/kmeans/rpc/rpc.go:CManagerSlot", "pkg/kmeans/rpc/rpc.go:Access", "pkg/kmeans/rpc/rpc.go:AddSlot"]}
{"id": "C42", "title": "Distributing datapoints across nodes loses nothing", "statement": "DistributeDataPointsFast/Accurate move drained datapoints to other nodes or back. (Proved: without lost responses, every datapoint is afterwards stored somewhere, expired, or was acknowledged by a node that rejected it; refuted: with an empty address list the drained datapoints are dropped, and a rejecting node acknowledges.)", "quantifier": "all clusters, address lists, fetch outcomes and orders, clocks", "why_tests_cant": "Failure patterns and message orders.", "anchors": ["pkg/kmeans/rpc/server.go:DistributeDataPointsFast", "pkg/kmeans/rpc/server.go:DistributeDataPointsAccurate", "pkg/kmeans/rpc/server.go:distributeDP"]}
{"id": "C43", "title": "Stealing centroids moves data without loss", "statement": "Without lost responses, StealCentroid conserves the datapoints of both nodes up to expired ones; it reports as transferred exactly the number of datapoints added locally; it stops as soon as the limit is reached; it terminates.", "quantifier": "all pairs of nodes, limits, clocks", "why_tests_cant": "All node states and failure points.", "anchors": ["pkg/kmeans/rpc/server.go:StealCentroid", "pkg/kmeans/rpc/client.go:NearestCentroids"]}
{"id": "C44", "title": "The client's nearest-centroid call filters out empty centroids", "statement": "The client returns only centroids holding datapoints, re-initialised with their mean vector. (Refuted: two adjacent empty centroids make it panic. Proved for at most one centroid and, generally, whenever no two empty ones are adjacent.)", "quantifier": "all responses", "why_tests_cant": "Requires adjacent empties.", "anchors": ["pkg/kmeans/rpc/client.go:NearestCentroids"]}
{"id": "C45", "title": "Best-fit node selection is a ranking of the responding nodes, whatever the response order", "statement": "BestFitNodesFast/Accurate return distinct responding addresses ranked by similarity of the fetched vector to the query, all rankable responders appear, non-responders never do; this holds for every order in which responses arrive.", "quantifier": "all address lists, responses and arrival orders", "why_tests_cant": "Goroutine scheduling.", "anchors": ["core/nodes/nodes.go:bestFitNodes", "core/nodes/vecs.go:fetchVecs", "core/nodes/vecs.go:collect"]}
{"id": "C46", "title": "Parallel fetch always completes and delivers each response exactly once", "statement": "For every schedule of the fetch goroutines and the collector: no sender blocks, the collector can always make progress until it has received exactly one result per address, and it keeps exactly the successful ones.", "quantifier": "every interleaving, any number of addresses", "why_tests_cant": "Scheduler interleavings.", "anchors": ["core/nodes/vecs.go:fetchVecs", "pkg/kmeans/rpc/serverutils.go:fetchVecs"]}
{"id": "C47", "title": "Putting a datapoint uses exactly one node", "statement": "A put tries addresses in the given order, stops at the first acknowledgement, modifies no node other than the acknowledging one unless a response was lost, and reports true iff some node acknowledged. (Refuted under lost responses: the datapoint is stored twice.)", "quantifier": "all clusters, address orders and network fates", "why_tests_cant": "Failure points.", "anchors": ["core/dps/putdps.go:putDataPoint"]}
{"id": "C48", "title": "Querying n datapoints returns at most n and, with drain, removes exactly those", "statement": "getDataPoints returns at most n datapoints for n>=0, consults nodes in order and stops once n are found; with drain and no lost response the cluster loses exactly the returned datapoints (up to expired). (Refuted under lost responses.)", "quantifier": "all clusters, n, network fates", "why_tests_cant": "Failure points and all states.", "anchors": ["core/dps/getdps.go:getDataPoints"]}
{"id": "C49", "title": "Random address order is a permutation", "statement": "shuffleAddrs returns a permutation of its input for every outcome of the random generator and never indexes out of range.", "quantifier": "all address lists and random outcomes", "why_tests_cant": "All random outcomes.", "anchors": ["core/dps/dps.go:shuffleAddrs"]}
{"id": "C50", "title": "HTTP put answers 200 iff some node acknowledged", "statement": "The put endpoint answers 400 on an undecodable body without touching any node; otherwise 200 iff the ranked attempt or the random fallback obtained an acknowledgement, else 500; as long as one listed node is reachable a well-formed put is answered 200.", "quantifier": "all requests, clusters and network fates", "why_tests_cant": "All failure combinations.", "anchors": ["core/api/handler.go:putDataPoint", "core/api/handler.go:tryUnpackRequestOptions"]}
{"id": "C51", "title": "API conversion is lossless", "statement": "Converting a wire datapoint to the internal form and back yields the same datapoint, and lists are converted element-wise in order. An answer can be encoded exactly if every float is neither NaN nor infinite and every expiry lies in the years 0 to 9999; otherwise nothing is sent.", "quantifier": "all datapoints", "why_tests_cant": "All values.", "anchors": ["core/api/conv.go", "core/api/handler.go:queryDataPoint"]}
{"id": "C52", "title": "Event-loop tasks run at their configured interval", "statement": "A task with interval k in 1..1000 runs in exactly the loops whose counter is a multiple of k; the counter stays within 0..1000; so in 1001 loops it runs 1000/k+1 times. (Refuted: 'every k-th loop' fails at the wrap-around: with k=2 the loops numbered 1000 and 0 both run.)", "quantifier": "all loop counts and intervals", "why_tests_cant": "Needs more than 1000 iterations.", "anchors": ["core/eventloop/el.go:EventLoop", "core/eventloop/eltask.go:withSkip"]}
{"id": "C53", "title": "Intervals over 1000 never run", "statement": "As documented, a task interval above 1000 disables the task. (Refuted: it is clamped to 1000 and runs at counters 0 and 1000, twice in 1001 loops. Proved: exactly that.)", "quantifier": "all intervals above 1000", "why_tests_cant": "Needs the documentation claim and long runs.", "anchors": ["core/eventloop/cfg.go:clamp"]}
{"id": "C54", "title": "A validated configuration never divides by zero", "statement": "After validation no task interval is zero. (Proved for eight of the nine intervals; refuted for the metadata interval, which is not clamped, so a zero interval panics in the first loop.)", "quantifier": "all configurations", "why_tests_cant": "All configurations.", "anchors": ["core/eventloop/cfg.go:clamp", "core/eventloop/cfg.go:validate", "core/eventloop/eltask.go:eltMeta"]}
{"id": "C55", "title": "Stopping the event loop stops it", "statement": "After stop is called, at most one further task starts, under every interleaving, and the loop ends.", "quantifier": "every interleaving of stop with the loop", "why_tests_cant": "Scheduler interleavings.", "anchors": ["core/eventloop/el.go:elStep", "core/eventloop/el.go:EventLoop"]}
{"id": "C56", "title": "Load balancing only pulls from richer nodes to a poorer local node", "statement": "Whenever load balancing issues a steal, the local node is at or below the mean minus margin, another node is asked, for a positive number that is at most a third of the local deficit divided by the number of addresses, and, unless only one node has the namespace, the donor keeps at least the mean plus margin if exactly the requested amount moves; no node is asked twice in a pass; a node within the margin, or with too small a deficit, changes nothing. The margin, computed in floating point, is two fifths of the mean, rounded down, for means below 2^50.", "quantifier": "all size tables, map orders and steal outcomes", "why_tests_cant": "All size distributions.", "anchors": ["core/eventloop/eltask.go:eltLoadBalancing", "core/eventloop/eltaskutils.go:fetchRemoteLenDPs"]}
{"id": "C57", "title": "Addresses are grouped by the namespaces they really have", "statement": "The namespace table lists an address under a namespace exactly as often as the address was polled and reported that namespace, in polling order; data is thus only exchanged between nodes sharing the namespace.", "quantifier": "all poll results", "why_tests_cant": "All poll results.", "anchors": ["core/eventloop/eltaskutils.go:addEntry", "core/eventloop/eltask.go:withNamespaceTable"]}
{"id": "C58", "title": "Arbitration helpers summarise all entries", "statement": "CheckAll returns a nil error iff no entry has an error and otherwise some entry's address and error; UniformStatus is true iff every status equals the given one; for every map iteration order.", "quantifier": "all maps and iteration orders", "why_tests_cant": "Map order randomisation.", "anchors": ["pkg/arbiter/arbiter.go:CheckAll", "pkg/arbiter/arbiter.go:UniformStatus"]}
{"id": "C59", "title": "Equally good search results are kept in pool order", "statement": "Of pool positions with equal score the earlier ones are kept and listed first. (Refuted: a newcomer with an equal score displaces an earlier entry while the result list still contains sentinels.) What holds: the scores of the answer do not depend on the order of the pool; without equal scores neither do the vectors; and a pool that is sorted best first is answered in its own order.", "quantifier": "every target, pool and K over IEEE binary64", "why_tests_cant": "Needs ties at the right places.", "anchors": ["pkg/searchutils/knn.go:bubbleInsert"]}
{"id": "C60", "title": "Every centroid of a manager keeps its vector the mean of its datapoints", "statement": "After any sequence of manager operations other than memory trimming, from a fresh manager, every centroid that holds datapoints has their exact mean as its vector (exact arithmetic); attached centroids are assumed to have it.", "quantifier": "every operation sequence without memory trimming, all arguments, clocks and map orders", "why_tests_cant": "Inductive invariant over unbounded histories.", "anchors": ["pkg/kmeans/centroidmanager/cmanager.go"]}
{"id": "C67", "title": "Requests never crash a node", "statement": "Any number of concurrent requests with non-negative counts and fitting dimensions, under every interleaving and every network behaviour, never make a node panic and leave its table in order; without steals, every such pool can be run to completion from any point.", "quantifier": "every pool of requests, interleaving, clock, map order, network fate and search result", "why_tests_cant": "Scheduler interleavings and network faults; unbounded pools.", "anchors": ["pkg/kmeans/rpc/server.go", "pkg/kmeans/rpc/rpc.go:Access", "pkg/kmeans/rpc/client.go"]}
{"id": "C68", "title": "A query is answered with what it found", "statement": "The query endpoint answers 200 with exactly the datapoints gathered from the ranked nodes, at most n of them, each stored on a listed node in that namespace; a negative n aborts the connection and changes nothing. (Refuted when a found datapoint has no JSON form - NaN or infinite coordinate, year outside 0..9999: the answer is 200 with an empty body, and a draining query has lost the datapoints.)", "quantifier": "all queries, clusters, network fates without lost answers, clocks", "why_tests_cant": "Needs particular data and all cluster states.", "anchors": ["core/api/handler.go:queryDataPoint", "core/dps/getdps.go:getDataPoints"]}
{"id": "C71", "title": "A running system never crashes", "statement": "Any number of requests, HTTP puts and queries, and event loops (with a non-zero Meta interval) running concurrently on any set of nodes never panic and keep every node's table in order, under every interleaving and every network behaviour; without event loops and steals they can always be run to completion.", "quantifier": "every pool of jobs, interleaving, clock, map order, network fate and search result", "why_tests_cant": "Scheduler interleavings and network faults; unbounded pools and histories.", "anchors": ["pkg/kmeans/rpc", "core/api/handler.go", "core/dps", "core/nodes", "core/eventloop"]}
{"id": "C72", "title": "A running system loses no datapoint", "statement": "When all concurrent requests, HTTP calls and event loops have ended, every datapoint that was in the cluster or was brought by them is stored in the cluster, with a caller that drained it, was never accepted (put not answered 200), had expired, or was refused; if searches always find something, every namespace has one dimension and each loop can reach its own node, only expired ones are refused.", "quantifier": "every pool of jobs, interleaving, clock, map order, network fate without lost answers and search result", "why_tests_cant": "Scheduler interleavings; unbounded pools.", "anchors": ["pkg/kmeans/rpc", "core/api/handler.go", "core/dps", "core/nodes", "core/eventloop"]}
{"id": "C73", "title": "Jobs leave alone what they do not concern", "statement": "Whatever runs concurrently, the contents of a namespace on a node are unchanged unless some request names it, some HTTP call names the namespace and lists the node, or some event loop manages the node.", "quantifier": "every pool of jobs, interleaving and network fate", "why_tests_cant": "Scheduler interleavings; unbounded pools.", "anchors": ["pkg/kmeans/rpc/rpc.go:Access", "core/api/handler.go", "core/eventloop"]}
{"id": "C74", "title": "Data stays reachable in a running system", "statement": "If every namespace that the concurrent jobs may touch exists beforehand on the nodes they may touch, then no datapoint becomes unreachable: conservation (C72) holds for the datapoints that requests can reach.", "quantifier": "every pool of jobs, interleaving, network fate without lost answers", "why_tests_cant": "Scheduler interleavings; unbounded pools.", "anchors": ["pkg/kmeans/rpc/rpc.go:AddSlot", "pkg/kmeans/rpc/server.go:AddDataPoint"]}
{"id": "C69", "title": "An event loop keeps the data of its node", "statement": "A round of an event loop on a reachable network keeps every datapoint of its node somewhere in the cluster. (Refuted when the loop's own address is not in its address list: internal distribution drains the node and sends to nobody. C72 proves it when the loop can reach its own node.)", "quantifier": "all loop configurations", "why_tests_cant": "Needs a particular configuration.", "anchors": ["core/eventloop/eltask.go:eltDistributeDataPointsInternal", "core/eventloop/cfg.go:validate"]}
{"id": "C70", "title": "The service as shipped never crashes", "statement": "Any number of services with the shipped configuration, started together on distinct addresses with any HTTP puts and queries running concurrently, never panic and keep every node's table in order, if each namespace is used with one vector dimension; the shipped configuration is unchanged by validation and its tasks run 1001, 51, 101, 334, 334, 334, 251, 126 and 143 times in 1001 loops. The upkeep requests it makes are Merge(-1,100), Split(1000,1000000), DistributeInternal(200), DistributeFast(100), DistributeAccurate(50), and every manager of such a cluster splits at 10000.", "quantifier": "any number of services, requests, rounds, interleavings, clocks, map orders, network fates", "why_tests_cant": "Scheduler interleavings and network faults; unbounded.", "anchors": ["cfg/cfg.go", "core/eventloop", "core/api/handler.go"]}
{"id": "C61", "title": "Ordered draining takes the worst-fitting datapoints, in even portions", "statement": "DrainOrdered(n) of a manager whose datapoints do not expire takes min(n, total) datapoints, in even portions over the centroids, and from each centroid exactly the given number of datapoints that fit its vector worst; the others stay in place and in order.", "quantifier": "every manager, n, clock and map order", "why_tests_cant": "All managers and map orders.", "anchors": ["pkg/kmeans/centroidmanager/cmanager.go:DrainOrdered"]}
{"id": "C62", "title": "Expire removes exactly the expired datapoints of every centroid", "statement": "After Expire each centroid keeps exactly those of its datapoints that were not expired when they were examined, in order, and no centroid is removed.", "quantifier": "every manager and clock", "why_tests_cant": "All clocks.", "anchors": ["pkg/kmeans/centroidmanager/cmanager.go:Expire"]}
{"id": "C63", "title": "Memory trimming keeps the live data and no empty centroid", "statement": "After MemTrim the centroids are exactly those that still hold a live datapoint, each with exactly its live datapoints in order.", "quantifier": "every manager and clock", "why_tests_cant": "All clocks.", "anchors": ["pkg/kmeans/centroidmanager/cmanager.go:MemTrim"]}
{"id": "C64", "title": "Internal redistribution hands the worst-fitting datapoints to the centroids that fit", "statement": "DistributeDataPointsInternal(n) takes min(n, total) datapoints in even portions, from each centroid the worst fitting, and appends each to the centroid whose vector the search finds for it at that moment (or back to its own when the search finds none); nothing else moves.", "quantifier": "every manager of one dimension with live data, n, clock and map order", "why_tests_cant": "All managers and map orders.", "anchors": ["pkg/kmeans/centroidmanager/cmanager.go:DistributeDataPointsInternal", "pkg/kmeans/centroid/centroid.go:DistributeDataPoints"]}
{"id": "C65", "title": "Merging is done by the centroids that meet the condition, until none is left", "statement": "After MergeCentroids(p) every remaining centroid is an original one that absorbed whole others only while it met p; if the search finds all centroids, at most one centroid is left or none meets p; nothing changes if none met p.", "quantifier": "every manager of one dimension, predicate, clock, map order", "why_tests_cant": "All managers and predicates.", "anchors": ["pkg/kmeans/centroidmanager/cmanager.go:MergeCentroids"]}
{"id": "C75", "title": "Vectors of any lengths are safe in a running system", "statement": "Any number of requests, HTTP calls and event loops running concurrently, with datapoints of any lengths even within one namespace, never panic and keep every node's table in order; without event loops and steals they can always be run to completion; when all have ended every datapoint is stored, handed to a caller, never accepted, expired or refused; places that no job concerns are unchanged. The same holds one instruction at a time with mutexes. Needed because a concurrent steal can leave a manager with vectors of two lengths.", "quantifier": "every pool of jobs, vector lengths, interleaving, clock, map order, network fate and search result", "why_tests_cant": "Scheduler interleavings, network faults and mixed vector lengths; unbounded pools.", "anchors": ["pkg/kmeans/rpc", "pkg/kmeans/centroidmanager/cmanager.go", "core/api/handler.go", "core/dps", "core/nodes", "core/eventloop"]}
{"id": "C76", "title": "A manager's vectors all have one length", "statement": "Requests with datapoints of any lengths, run one after the other on any nodes, leave every manager with centroids and datapoints of one common length, that of its vector: in particular a steal takes no centroid of another length. (Refuted for requests that run at the same time: a steal reads the local manager's vector, the manager is then emptied and takes in a datapoint of another length, and the stolen centroid is attached beside it.)", "quantifier": "every sequence of requests, vector lengths, clock, map order, network fate and search result; refuted over interleavings", "why_tests_cant": "Unbounded histories; the failure needs a particular interleaving of three requests.", "anchors": ["pkg/kmeans/rpc/server.go:StealCentroid", "pkg/kmeans/centroidmanager/cmanager.go:AddDataPoint"]}
{"id": "C77", "title": "Namespaces and nodes last", "statement": "Whatever requests, HTTP calls and event loops run concurrently, a namespace that exists on a node goes on existing there, the set of nodes does not change and no node's threshold changes.", "quantifier": "every pool of jobs, vector lengths, interleaving and network fate", "why_tests_cant": "Scheduler interleavings; unbounded pools.", "anchors": ["pkg/kmeans/rpc/rpc.go:AddSlot", "pkg/kmeans/rpc/rpc.go:Access"]}
{"id": "C66", "title": "Concurrent requests have the effect of requests one after the other", "statement": "Clients that send requests to nodes, each depending on the answers so far, get the same answers and leave the same data as if each request were one indivisible step placed between its start and its end; at every moment of the run the stored data is that of the requests placed so far. In particular single concurrent requests are equivalent to some sequential order that respects which ended before which began, also at the level of single mutex instructions. This holds for all requests to one manager other than an add that creates it. Meta is not such a step (refuted: it can show more datapoints than ever existed), but lists each namespace once with sizes that the manager had at some moment during the call; distribution is not (refuted: a client can find a datapoint neither where it was nor where it goes).", "quantifier": "every number of clients, adaptive request sequences, interleaving, clock, map order", "why_tests_cant": "Linearizability quantifies over all interleavings and all client programs.", "anchors": ["pkg/kmeans/rpc/server.go", "pkg/kmeans/rpc/rpc.go:Access", "pkg/kmeans/rpc/server.go:Meta", "pkg/kmeans/rpc/server.go:DistributeDataPointsFast"]}
{"id": "C78", "title": "Each request does what the manager operation it names is specified to do", "statement": "A request to a namespace of a node is answered with, and changes only that namespace's manager by, the effect specified for the operation it names: the vector or the size; an add to the nearest centroid (answered true either way); draining the oldest, or the worst-fitting, in even portions; expiry; trimming; moving the vector to the mean; internal redistribution of the worst-fitting; a lookup or a nearest-centroid search with or without removal; splitting and merging of the centroids with strictly more than min and strictly fewer than max datapoints.", "quantifier": "every node, namespace, request, manager of one dimension, clock, map order and search", "why_tests_cant": "All managers and requests.", "anchors": ["pkg/kmeans/rpc/server.go", "pkg/kmeans/centroidmanager/cmanager.go"]}
{"id": "C79", "title": "A client call is one request, or nothing", "statement": "Each of the 18 methods of the client library makes exactly one request of the kind it is named after, with the arguments it was given, at the address of the client, and returns what the node answered. If there is no node or the request is lost nothing happens, if the answer is lost the request has its effect; in both cases the caller gets the method's zero result (empty list, nil, false, 0).", "quantifier": "every method, argument, world and network fate", "why_tests_cant": "All network faults and system states.", "anchors": ["pkg/kmeans/rpc/client.go"]}
{"id": "C80", "title": "A lookup walks through the centroids from the nearest and takes the best of each", "statement": "KNNLookup(v,k) asks for the k centroids whose vectors are best for v and goes through them in this order; of each it takes, from the datapoints that have not expired, the best for v, as many as are still missing, and stops when it has k. With drain exactly these are removed; in the centroids looked into, the expired ones are removed in any case; the other centroids are unchanged.", "quantifier": "every manager of one dimension, vector, k, drain flag, clock and search", "why_tests_cant": "All managers, clocks and search functions.", "anchors": ["pkg/kmeans/centroidmanager/cmanager.go:KNNLookup", "pkg/kmeans/centroid/centroid.go:KNNLookup"]}
{"id": "C81", "title": "What has been put can be queried", "statement": "A query over HTTP for at least as many datapoints as the namespace has on all nodes returns exactly all of them, each once, whatever the order of the nodes and whether or not some addresses have no node or no such namespace - if nothing expires, no centroid is empty and every vector involved can be ranked. In particular a datapoint that has been put over HTTP is in the answer to a later such query.", "quantifier": "every number of nodes, managers, query vector, mode, clock and map order; perfect network", "why_tests_cant": "Unbounded clusters and data.", "anchors": ["core/api/handler.go", "core/dps/getdps.go", "core/nodes/nodes.go"]}
{"id": "C82", "title": "A query returns the nearest datapoints", "statement": "A query over HTTP for n datapoints returns the n stored datapoints whose vectors are nearest to the query vector. Refuted: a centroid is chosen by its own vector, and a datapoint of another centroid can be nearer - even the query vector itself is not found. Proved when the node has one centroid.", "quantifier": "every node, manager with one centroid, vector, n; refuted in general", "why_tests_cant": "All managers and vectors.", "anchors": ["core/api/handler.go", "pkg/kmeans/centroidmanager/cmanager.go:KNNLookup"]}
{"id": "C83", "title": "Slices and pointers do not matter", "statement": "The program that keeps its datapoints and centroids in Go slices (backing arrays with capacities, append in place or into a larger array, truncation in place) and behind pointers answers every sequence of manager calls as the model with plain lists does: it panics in the same cases and reads the clock as often, the manager read from the final memory is the same, and every answer, read from the final memory, is what its call answered - so no later call changes a returned slice of datapoints or drained centroids.", "quantifier": "every sequence of calls of the 12 exported operations, growth rule of append, initial capacity, clock, map order and search", "why_tests_cant": "All call sequences and growth rules; aliasing bugs show only for particular capacities.", "anchors": ["pkg/kmeans/centroid/centroid.go", "pkg/kmeans/centroidmanager/cmanager.go"]}
{"id": "C84", "title": "An answer does not change after it was given", "statement": "What a call has returned stays the same whatever is called later. Refuted for NearestCentroids without drain: it returns pointers to centroids that stay in the manager, and the server encodes the answer after it has released the mutex; an AddDataPoint in between changes the answer. C83 proves it for all other calls.", "quantifier": "every sequence of calls; refuted", "why_tests_cant": "Needs a call between the return and the encoding of the answer.", "anchors": ["pkg/kmeans/centroidmanager/cmanager.go:NearestCentroids", "pkg/kmeans/rpc/server.go:NearestCentroids"]}
{"id": "C85", "title": "MemTrim leaves slices whose capacity is their length", "statement": "After MemTrim the capacity of every centroid's slice of datapoints, and of the manager's slice of centroids, is its length (the comments of both methods say so). Refuted: datapoints are appended one by one, and the slice of centroids is allocated before it is known how many stay. Proved: the capacity of the manager's slice is the number of centroids before the call, and a centroid has at most K+1 places per datapoint if append spares at most K places per element.", "quantifier": "every manager and the growth rule of append", "why_tests_cant": "Capacities are not visible in the API.", "anchors": ["pkg/kmeans/centroid/centroid.go:MemTrim", "pkg/kmeans/centroidmanager/cmanager.go:MemTrim"]}
{"id": "C86", "title": "The tasks of the event loop make exactly the configured requests", "statement": "Each run of a task makes a sequence of requests that is a function of the configuration and of the answers: expiry, MemTrim, Merge, Split and internal distribution ask the local node for its namespaces and send it one request per namespace, with the configured numbers; fast and accurate distribution ask, for each local namespace, all remote addresses for theirs and then name exactly those that have it as receivers; metadata is asked of the local node or of all addresses; load balancing asks all addresses for their namespaces, then for each namespace its holders for their sizes, and tells the local node to steal exactly from those who have enough. Nothing else is sent and the state changes only as these requests, served alone, change it; lost ones change nothing.", "quantifier": "every configuration, cluster state, network fate, clock, map order", "why_tests_cant": "All clusters and network faults; a test sees effects, not the requests.", "anchors": ["core/eventloop/eltask.go", "core/eventloop/eltaskutils.go"]}
{"id": "C87", "title": "The log tells what the nodes have", "statement": "After the metadata task the default logger prints, for each task, one line for each configured address (only for the local one if LogLocalOnly), in the order of the configuration, with the numbers of namespaces, centroids and datapoints that the node has, and the task on the line of the local node. Refuted in two cases: a local address that is not among RemoteAddrs has no line, so with LogLocalOnly nothing is printed at all after the first metadata; and a node whose answer was lost is shown as one without data.", "quantifier": "every configuration, cluster state, clock, map order; any network for the lines, a perfect one for the numbers", "why_tests_cant": "All clusters and configurations.", "anchors": ["core/eventloop/log.go", "core/eventloop/cfg.go", "core/eventloop/eltask.go:eltMeta"]}
{"id": "C88", "title": "The split threshold of a manager is that of its node", "statement": "In any interleaving of requests, HTTP calls and event loops, every manager of every node has the threshold that the node was started with, also when it was created for a stolen or distributed datapoint and whatever was merged or split.", "quantifier": "every set of nodes, jobs, schedule, clock, map order, network fate", "why_tests_cant": "All interleavings.", "anchors": ["pkg/kmeans/rpc/server.go", "pkg/kmeans/centroidmanager/cmanager.go"]}
{"id": "C89", "title": "Distances in binary64 are the exact ones up to rounding", "statement": "For finite vectors of n <= 2^40 coordinates of size at most 2^500 EuclideanDistance returns a finite number that differs from the exact sum of absolute differences D by at most (2n+1) 2^-53 D + n 2^-535. For vectors of n <= 2^20 coordinates of size at most 2^450, one of which is at least 2^-200, CosineSimilarity returns a finite number that differs from the cosine of the angle by at most (4n+16) 2^-53.", "quantifier": "all vectors of float64 in the stated ranges", "why_tests_cant": "All float64 vectors; no finite set of test vectors bounds the error.", "anchors": ["pkg/mathutils/distance.go"]}
{"id": "C90", "title": "A search in binary64 finds the best up to rounding", "statement": "For a target and a pool of vectors of the same length in the ranges of C89, each of the four searches returns min(k, pool size) different positions of the pool, and no position left out is better by more than rounding: for the Euclidean searches (1-e) times the exact distance of the nearer-ranked one is at most (1+e) times the other's plus 2n 2^-535, with e = (2n+1) 2^-53; for the cosine searches the exact cosines differ by at most 2(4n+16) 2^-53 in the wrong direction.", "quantifier": "all targets, pools and k in the stated ranges", "why_tests_cant": "All float64 pools.", "anchors": ["pkg/searchutils/knn.go", "pkg/mathutils/distance.go"]}
{"id": "C91", "title": "The laws of distances and searches hold exactly in binary64", "statement": "For all finite float64 vectors: different vectors are at a positive and finite distance; similarities are at most 1 and symmetric; the search prefers what is truly nearer or more similar, and finds k vectors if the pool has as many. All refuted: different vectors at distance 0, finite vectors at distance infinity, a vector with a similarity above 1 to itself, a similarity that depends on the order of the arguments, a farther vector preferred to a nearer one, a vector at another angle preferred to the target itself, and a pool of one finite vector in which nothing is found.", "quantifier": "all finite float64 vectors; refuted", "why_tests_cant": "The failing vectors are rare.", "anchors": ["pkg/mathutils/distance.go", "pkg/searchutils/knn.go"]}
{"id": "C92", "title": "Nothing is made up", "statement": "Whatever requests, HTTP calls and event loops run at the same time, and whatever messages the network loses: every datapoint that is stored in the end, that a handler has dropped, or that an answer shows (of a node, in the body of an HTTP response, or found by an HTTP query) was stored, dropped or sent by a client under the same namespace, with the same vector, payload and expiry.", "quantifier": "every set of nodes, jobs, schedule, clock, map order, network fate", "why_tests_cant": "All interleavings and network faults.", "anchors": ["pkg/kmeans/rpc/server.go", "pkg/kmeans/rpc/client.go", "core/dps", "core/api/handler.go", "core/eventloop/eltask.go"]}
{"id": "C93", "title": "A lost answer makes at most one copy", "statement": "In any interleaving of requests, HTTP calls and event loops, for any set of datapoints: their number in the end, stored, dropped or handed out, exceeds their number in the beginning, stored, dropped or sent by clients, by at most the number of answers that the network has lost. So a network that loses no answer copies nothing, whatever requests it loses.", "quantifier": "every set of nodes, set of datapoints, jobs, schedule, clock, map order, network fate", "why_tests_cant": "All interleavings and network faults; copies arise only when an answer is lost at one of a few moments.", "anchors": ["pkg/kmeans/rpc/server.go", "pkg/kmeans/rpc/client.go", "core/dps", "core/eventloop/eltask.go"]}
{"id": "C94", "title": "Datapoints that do not expire are not lost with messages", "statement": "When all jobs have ended and none of them drained a node over the network, the number of datapoints of any set that never expires is at least what it was in the beginning, stored, dropped or sent by clients, whatever messages were lost: distribution keeps a datapoint until somebody has confirmed it. Refuted for draining jobs: a node empties itself for a query whose answer is then lost.", "quantifier": "every set of nodes, set of datapoints, jobs that do not drain, schedule, clock, map order, network fate", "why_tests_cant": "All interleavings and network faults.", "anchors": ["pkg/kmeans/rpc/server.go", "core/dps", "core/api/handler.go"]}
{"id": "C95", "title": "Expired data are neither handed out nor stored anew", "statement": "In a system of nodes, clients, HTTP handlers and event loops that run in any interleaving on any network, every datapoint in an answer to a drain, a lookup or an HTTP query was found unexpired by a clock reading made while the jobs ran, and so was every datapoint that is stored at the end and was not stored in the beginning. With a clock that does not go back, what had expired when the jobs started is in no such answer and is not stored anew. Refuted for NearestCentroids, which hands out whole centroids including what has expired in them.", "quantifier": "every set of nodes, jobs, schedule, clock, map order, network fate", "why_tests_cant": "Expiry races with distribution and stealing across nodes; a test fixes one clock and one order.", "anchors": ["pkg/kmeans/centroid/centroid.go", "pkg/kmeans/centroidmanager/cmanager.go", "pkg/kmeans/rpc/server.go", "core/dps", "core/api/handler.go"]}
{"id": "C96", "title": "Upkeep tasks of the event loop", "statement": "A run of an upkeep task (expire, memory trim, split, merge, move vectors) terminates without a panic, changes no other node and no namespace that is not known locally, and gives each local namespace the outcome of the respective manager operation, or leaves it as it was if the request was lost. On a perfect network, after an expiry run each namespace has exactly what a sweep of the clock found unexpired; after a memory trim no centroid is empty either; after a merge run no namespace with two centroids has one within the merge limits.", "quantifier": "every numeric type with an order, set of nodes, configuration, clock, map order, network fate", "why_tests_cant": "Goes through all namespaces of a node with a clock that ticks between them; needs controlled clock and lost messages.", "anchors": ["core/eventloop/eltask.go", "pkg/kmeans/rpc/server.go", "pkg/kmeans/centroidmanager/cmanager.go"]}
{"id": "C97", "title": "Bounds of load balancing", "statement": "On a perfect network, a run of the load balancing task changes nothing of a namespace of which the local node has more than the mean less the margin. Else the local node gets more and others less, beyond the mean less two thirds of the margin by less than one largest centroid, and a giver stays above the mean plus the margin less one largest centroid (if two nodes have the namespace). If no centroid exceeds the margin, the local node ends at most a third of the margin above the mean and givers stay above the mean. Refuted: that balancing settles; a large centroid goes to and fro for ever.", "quantifier": "every numeric type with an order, set of nodes, sizes, configuration, map order", "why_tests_cant": "Unbounded numbers of nodes, centroids and rounds.", "anchors": ["core/eventloop/eltaskutils.go", "core/eventloop/eltask.go", "pkg/kmeans/rpc/server.go"]}
{"id": "C98", "title": "Load balancing feeds poor nodes, but not emptied ones", "statement": "On a perfect network, a run of the load balancing task makes the local node's share of a namespace grow, if it is below the mean less the margin, if at least one datapoint per peer is wanted, if its search finds a non-empty centroid at each peer, and if some peer has enough. A node that has lost its last centroid has a vector of NaNs: balancing then takes nothing, ever, and the node is not chosen for new datapoints. Refuted: that balancing fills an empty node.", "quantifier": "every numeric type with an order, set of nodes, sizes, configuration; binary64 for the lock-out", "why_tests_cant": "Depends on NaN in a vector after a particular history, over any number of rounds.", "anchors": ["core/eventloop/eltaskutils.go", "core/dps", "pkg/searchutils", "pkg/kmeans/rpc/server.go"]}
{"id": "C99", "title": "The tasks of the event loop end", "statement": "Every task of an event loop, and every number of rounds of the loop, runs to its end on any network (whatever messages are lost) and leaves the cluster in order, if nobody else works at the same time. A load balancing run ends after at most as many steals per peer as the peer has centroids of the namespace.", "quantifier": "every numeric type with an order, set of nodes, configuration, clock, map order, network fate", "why_tests_cant": "A test can only see that one run ended.", "anchors": ["core/eventloop/el.go", "core/eventloop/eltask.go", "core/eventloop/eltaskutils.go", "pkg/kmeans/rpc/server.go"]}
{"id": "C100", "title": "Stopping a node", "statement": "After the function that StartListen returns was called, nobody can connect, and it returns with all connections closed, so that nothing is served any more. Refuted: the call can panic (a nil connection, if Accept fails meanwhile), only the last connection is closed, earlier ones go on being served, and sometimes even the last; one failing Accept ends accepting for good while the listener stays open. Proved: from the call on no connection is accepted and requests are served only on connections that were open then, at most one on each if clients use a connection once; no panic while no Accept has failed; the last connection is closed if the accepting goroutine does not wake up in between.", "quantifier": "every interleaving of the accepting goroutine, the stopping one, clients and failures of Accept", "why_tests_cant": "A race between two goroutines without synchronisation.", "anchors": ["pkg/kmeans/rpc/rpc.go:StartListen"]}
{"id": "C101", "title": "HTTP routes", "statement": "After Start a request for /api/dp/put or /api/dp/query is answered by the handler of that name, whatever its method; any other request is answered 400, 404 or with a redirection to a clean path, and touches no node. With a nil address list nothing is started. A second Start in the same process panics, also if the first one failed.", "quantifier": "all paths, methods and bodies, address lists, both orders of registration", "why_tests_cant": "All paths; a test that starts the interface twice dies.", "anchors": ["core/api/handler.go:setRoutes", "core/api/api.go:Start"]}
{"id": "C102", "title": "HTTP bodies", "statement": "The put and query handlers accept exactly the JSON objects (or null) whose members with the names of the documented fields, in any case, have values of the right kind; they read the documented layout as it says, irrespective of the order of members, ignoring unknown ones; and what a query answers can be put again without change. Refuted: a put without a namespace or a vector is refused; an empty object is stored under the empty namespace and answered 200.", "quantifier": "all JSON values, numeric types and encodings of numbers, times and bytes that can be read back", "why_tests_cant": "All JSON values.", "anchors": ["core/api/handler.go", "core/api/conv.go"]}
{"id": "C103", "title": "Load balancing settles", "statement": "On a perfect network, load balancing keeps every centroid whole and only takes it to another node. If all nodes have the namespace and no centroid has more datapoints than the margin, then in any sequence of load balancing runs by any of the nodes, however long, at most two thirds of the imbalance (the sum of the distances of the sizes to their mean) are moved, and at most half as many runs as the imbalance says change any size. If the nodes take turns, then after so many rounds no node can pull any more, and nothing of the namespace changes from then on. (C97 has a counterexample with a larger centroid.)", "quantifier": "every numeric type with an order, set of nodes, sizes, configuration, order of runs, map order", "why_tests_cant": "Unbounded numbers of nodes, centroids and rounds.", "anchors": ["core/eventloop/eltaskutils.go", "core/eventloop/eltask.go", "pkg/kmeans/rpc/server.go"]}
{"id": "C104", "title": "The text of the log", "statement": "The lines of the default logger can be read back from the text of the log (addresses, numbers, tasks and time stamps), and so can namespace, numbers and peer from the description of a task; the columns of nodes whose addresses have the same length are aligned. This holds if addresses have no brackets, bars or quotes and no text has a line break. Refuted without: the log tells nothing false of a node; with an HTTP put anybody can create a namespace whose name forges lines of the log.", "quantifier": "all lines, descriptions, numbers, addresses and namespaces", "why_tests_cant": "All namespaces and numbers.", "anchors": ["core/eventloop/log.go:LogTask", "core/eventloop/eltask.go"]}
{"id": "C105", "title": "Counts that are too large", "statement": "A request for more datapoints (or centroids) than Go can make a slice for, which is more than 2^48 bytes of them, kills the node that has the namespace; requests to distribute that many kill any node. An HTTP query for so many is aborted and changes nothing. Up to that limit (3518437208883 datapoints) no job crashes whatever runs at the same time.", "quantifier": "every numeric type with an order, set of nodes, jobs, schedules and counts", "why_tests_cant": "All counts; a test with such a count takes down the test.", "anchors": ["pkg/searchutils/knn.go:KNNBrute", "pkg/kmeans/centroidmanager/cmanager.go", "pkg/kmeans/rpc/server.go", "core/dps/getdps.go"]}
{"id": "C106", "title": "MoveVector repairs a vector up to rounding", "statement": "In the binary64 arithmetic that the code runs with: after MoveVector every coordinate of the vector of a centroid with live datapoints is finite and away from their mean by at most (n + 3) * 2^-53 * B, whatever the vector was before (infinite or not a number included), if their coordinates are within B and there are at most 2^24 of them; B may be anything from 2^-1022 to 2^990. The same holds for VecMean, and for the vector of a manager as the mean of the vectors of its centroids, if none of them is empty. Without the bound B VecMean may overflow although the mean is finite.", "quantifier": "all centroids and managers (with any vectors), clocks, bounds, dimensions and numbers of datapoints", "why_tests_cant": "The bound is over all roundings of all sums.", "anchors": ["pkg/mathutils/vectools.go:VecMean", "pkg/kmeans/centroid/centroid.go:MoveVector", "pkg/kmeans/centroidmanager/cmanager.go:MoveVector"]}
{"id": "C107", "title": "Cosine searches on machines that fuse", "statement": "Go lets a compiler fuse x*y + z into one operation with one rounding, and on some machines it does. Whichever of the products in norm and CosineSimilarity are fused: CosineSimilarity is finite and away from the exact cosine by at most (4n + 16) * 2^-53 for vectors of n moderate coordinates, and the nearest and furthest searches by it answer with min(k, len(vecs)) different valid indexes such that no vector left out is better than one chosen by more than twice that; and they keep the contract that the other theorems ask of a search function. What is false: that all machines answer alike.", "quantifier": "all vectors, pools, counts and all choices of the products that are fused", "why_tests_cant": "A test runs on one machine and with one compiler.", "anchors": ["pkg/mathutils/distance.go:CosineSimilarity", "pkg/mathutils/distance.go:norm", "pkg/searchutils/knn.go:KNNBrute"]}
{"id": "C108", "title": "Emptying a node or starting it again", "statement": "CManagerTable.Reset, or a node that ends and is started again, while requests, HTTP requests and event loops run on it and on other nodes: afterwards the node has no namespaces; nothing panics; what does not steal can end; other places change only where a job works on them; all data on the other nodes stays in sight; nothing is made up, multiplied beyond the answers lost, or lost from memory. What is false: that an acknowledged datapoint survives; that an Add acknowledged after Reset has returned is in sight; that only the node that is emptied loses data (one that steals at that moment takes all the other node has, beyond its limit, and drops it).", "quantifier": "all worlds, jobs, sets of nodes emptied (any number of times) and interleavings; for copies, losses and made-up data all networks", "why_tests_cant": "The moment at which the table is emptied, relative to every lock that every request takes.", "anchors": ["pkg/kmeans/rpc/rpc.go:Reset", "pkg/kmeans/rpc/rpc.go:Access", "pkg/kmeans/rpc/server.go:StealCentroid", "pkg/kmeans/rpc/server.go:AddDataPoint"]}
{"id": "C109", "title": "The texts of HTTP bodies and answers", "statement": "The bytes of a request body are accepted as JSON exactly if they are a text after RFC 8259 of at most 10000 levels. Strings with their escapes and surrogates are the UTF-8 that they stand for, numbers of up to 9000 characters become the closest binary64 number (the even one of two, with the sign of a zero) or are refused if they are too large, whole numbers must have 64 bits, payloads are base64, times RFC 3339 (and exactly what else is read is stated); so a put and a query with all fields, in any white space and spelling of the names, mean what they say. The text of an answer is a JSON text from which a client reads the datapoints back. A body that was cut short is refused unless only white space is missing. Namespaces are always UTF-8. What is false: that numbers of any length are read so (longer exponents are cut off); that only RFC 3339 times are read; that every namespace can be named over HTTP, and that names that differ in bytes that are no UTF-8 stay apart.", "quantifier": "all byte strings, numbers, payloads, instants from year 0 to 9999 and zones; all lists of datapoints", "why_tests_cant": "The space of texts: tests try a few spellings of a few values.", "anchors": ["core/api/handler.go:tryUnpackRequestOptions", "core/api/handler.go:putDataPoint", "core/api/handler.go:queryDataPoint", "core/api/conv.go:DP"]}
{"id": "C110", "title": "The numbers of answers", "statement": "A finite coordinate of a datapoint is written in the answer to a query as a JSON number that a client reads back as the same binary64 number, with the sign of a zero; so different numbers have different texts. It has at most seventeen digits: no text (of up to 9000 characters) of fewer digits is read as this number, and none of as many stands for a number that is closer to it; if one stands for another number that is as close, the last digit is even. It has no needless zeros, and an exponent exactly if the number is not 0 and below 0.000001 or at least 10^21. So the text of any answer with finite coordinates is read back as the datapoints.", "quantifier": "all finite binary64 numbers; all lists of datapoints with finite coordinates and times of years 0 to 9999", "why_tests_cant": "There are 2^64 numbers; whether digits are the fewest that are enough depends on all other texts.", "anchors": ["core/api/handler.go:queryDataPoint", "core/api/conv.go:DP"]}
{"id": "C111", "title": "The bytes between nodes", "statement": "A call that a client makes, written with the rules of encoding/gob and net/rpc, is read by the node as the same call with the same arguments (every bit of every coordinate, payload, instant and number), whatever bytes follow; so different calls are different bytes. The answer that the client has is the one that the node gave, except that an empty vector arrives as none, centroids arrive without their vectors and maps in any order; an unknown namespace arrives as that error. All times that a body can give a datapoint can be sent, except those with an offset of one minute west of UTC: such a datapoint is accepted as JSON, no node can be told of it, and the put is answered 500 and changes nothing though all nodes are there.", "quantifier": "all calls and answers with values of 64 bits and less than 8 GiB; all times and offsets that bodies can have", "why_tests_cant": "Values of all sizes and nestings; fields that are left out shift the numbers of the others; one offset out of thousands is the mark for UTC.", "anchors": ["pkg/kmeans/rpc/client.go:client", "pkg/kmeans/rpc/client.go:AddDataPoint", "pkg/kmeans/rpc/server.go:AddDataPoint", "pkg/kmeans/rpc/server.go:handleNamespaceErr", "core/api/handler.go:putDataPoint"]}
{"id": "C112", "title": "From text to text", "statement": "What the text of a put over HTTP says (coordinates, payload, time, flag) is read back by a client from the text of the answer to any later query for the namespace that asks for enough and overlooks nothing, if no message is lost and a node is there that takes the datapoint; the coordinates are the binary64 numbers closest to the decimals. Whatever body is accepted, the calls to the nodes that are made for it can be sent (finite coordinates, times and numbers of 64 bits, below the size limit), if it is shorter than 500 MB and no time is one minute west of UTC.", "quantifier": "all bodies of puts with all fields, in any white space and spelling; all bodies of queries; all systems with nodes of any contents; all accepted bodies of that size", "why_tests_cant": "Infinitely many texts; the way goes through the parser, the search for a node, the encoding between nodes, the store, another search, and the writer.", "anchors": ["core/api/handler.go:putDataPoint", "core/api/handler.go:queryDataPoint", "core/api/handler.go:tryUnpackRequestOptions", "core/dps/putdps.go:PutDataPointFast", "core/dps/getdps.go:GetDataPointsFast", "pkg/kmeans/rpc/server.go:AddDataPoint"]}
{"id": "C113", "title": "One configuration for several event loops", "statement": "The loop counter and the stopped flag are in the configuration and nothing resets them. The first loop of a configuration runs the tasks as described (C52, C86). After one was stopped, loops started with the same configuration change nothing and end at once, however many and in whatever order. One call of the function that stops a loop stops all loops of the configuration: each starts at most one more task. (Refuted: that two loops that run at the same time with one configuration each run their tasks at the configured intervals. They share the counter: with intervals of 2, one may run all tasks in every round and the other none, ever.)", "quantifier": "all configurations, systems, numbers of loops, interleavings", "why_tests_cant": "Nothing tells a loop that does nothing from one that has nothing to do; the turns of two goroutines.", "anchors": ["core/eventloop/el.go:EventLoop", "core/eventloop/el.go:elStep", "core/eventloop/cfg.go:eventLoopInternal", "core/eventloop/eltask.go:withSkip"]}
{"id": "C114", "title": "The network comes to rest", "statement": "README.md: the network will work itself into a state of accuracy over time. (Refuted: two nodes, whose event loops take turns and run every task in every round, and six datapoints, from which on every turn moves a datapoint to the other node, forever, although no message is lost, nothing expires and nobody puts or queries. Fast distribution sends it to the node whose vector is nearest, accurate distribution back to the one that has the nearest centroid. Load balancing alone does settle: C103.)", "quantifier": "all numbers of turns", "why_tests_cant": "A run that has not come to rest yet proves nothing.", "anchors": ["README.md", "core/eventloop/eltask.go:eltDistributeDataPointsFast", "core/eventloop/eltask.go:eltDistributeDataPointsAccurate", "pkg/kmeans/rpc/server.go:DistributeDataPointsFast", "pkg/kmeans/rpc/server.go:DistributeDataPointsAccurate"]}
{"id": "C115", "title": "Puts and queries go to the closest node", "statement": "README.md: a datapoint is put to the node whose mean vector is closest, or, with accurate set, to the node with the closest of all centroids. When every message arrives and some vector can be compared, the put is answered 200 and its one addition is made at a node that has a vector as similar to the datapoint's as any (fast: the vectors of the nodes; accurate: those of all their centroids). An accurate put lands in the closest of all centroids of all nodes. A query asks such a node first, and only that one if it has enough.", "quantifier": "all worlds, address lists, datapoints, both kinds of put, all number systems with an order", "why_tests_cant": "The closest is a statement about all nodes and centroids; ties and NaN decide between them in cases no test lists.", "anchors": ["README.md:32", "core/api/handler.go:putDataPoint", "core/api/handler.go:queryDataPoint", "core/dps/putdps.go:PutDataPointFast", "core/dps/putdps.go:PutDataPointAccurate", "core/nodes/nodes.go:bestFitNodes", "pkg/searchutils/knn.go:KNNCos"]}
{"id": "C116", "title": "Distribution sends each datapoint to the closest node", "statement": "DistributeDataPointsFast and DistributeDataPointsAccurate take the datapoints that DrainOrdered would give and, when every message arrives, add each of them once: at a node that has a vector as similar to it as any of the nodes (fast: the vectors of the nodes after draining; accurate: the vectors of all centroids at that moment), or back at their own node if no vector can be compared. If nothing expires, accurate distribution puts each into a centroid that is then the closest of all.", "quantifier": "all worlds, address lists, numbers of datapoints, all number systems with an order", "why_tests_cant": "Each datapoint changes the vectors that the next ones are compared with.", "anchors": ["pkg/kmeans/rpc/server.go:DistributeDataPointsFast", "pkg/kmeans/rpc/server.go:DistributeDataPointsAccurate", "pkg/kmeans/rpc/server.go:distributeDP"]}
