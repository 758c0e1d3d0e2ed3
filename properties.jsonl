{"id": "C01", "title": "Index lookup is exact after any edit history", "statement": "After any sequence of container edits followed by PrepareForUse, find(k) returns -1 exactly when no stored element has index k, and otherwise returns an in-range position whose element has index k.", "quantifier": "all element lists, all finite sequences of push_back / operator[] edits / remove / Concatenate / assign / ChangeIndices / PopulateIndices / clear / PrepareForUse, all keys, and every legal choice of the hash table among equal keys", "why_tests_cant": "staleness bugs depend on the whole edit history and on which cached flags were reset by it; a test samples a few histories", "anchors": ["SRCC/incl/arraystructures_incl.cpp ArrayStruct::find,HashArray,PrepareForUse,push_back,remove,Concatenate,assign,clear,PopulateIndices", "SRCC/incl/arraystructures.hpp ArrayStruct::operator[]"]}
{"id": "C02", "title": "Maximum index bounds every stored index", "statement": "After any edit history followed by PrepareForUse, GetMaxIndex() is at least every stored index, is attained (or 0), and numbering a new element GetMaxIndex()+1 never collides with an existing element.", "quantifier": "all element lists with non-negative indices and all edit histories", "why_tests_cant": "collision requires a particular history of additions and removals", "anchors": ["SRCC/incl/arraystructures_incl.cpp SetMaxIndex,GetMaxIndex,push_back,PrepareForUse,PopulateIndices"]}
{"id": "C03", "title": "remove deletes exactly the requested elements and un-readies the container", "statement": "remove(list) leaves exactly the elements whose index is not in the list, in their original order, and a container whose lookup table is out of date afterwards does not report itself ready.", "quantifier": "all element lists, all deletion lists (repetitions and unknown indices included), all flag states", "why_tests_cant": "quantifies over all lists and all flag states", "anchors": ["SRCC/incl/arraystructures_incl.cpp ArrayStruct::remove,checkready,PrepareForUse", "SRCC/incl/arraystructures.hpp ArrayStruct::isready"]}
{"id": "C04", "title": "Renumbering gives 1..n and lookups invert it", "statement": "After PopulateIndices the elements are numbered 1..n in storage order and find(k) = k-1 for every k in 1..n and -1 otherwise.", "quantifier": "all element lists and all keys", "why_tests_cant": "all sizes and keys", "anchors": ["SRCC/incl/arraystructures_incl.cpp PopulateIndices,find"]}
{"id": "C05", "title": "Parent lookup returns all and only the siblings", "statement": "In a container keyed by a parent object, after any edit history followed by PrepareForUse, findsiblings(k) lists each position whose element has parent k exactly once and nothing else, countparent(k) is their number, and findparent(k) is one of them or -1.", "quantifier": "all element lists, all edit histories, all parent keys, every legal hash ordering", "why_tests_cant": "histories and hash orderings cannot be enumerated", "anchors": ["SRCC/incl/snakstruct_incl.cpp SnakStruct::HashParent,findsiblings,findparent,push_back,remove,Concatenate,PrepareForUse"]}
{"id": "C06", "title": "Removing one parent entry leaves the others", "statement": "DeHashParent(pos) on a container whose parent table is current removes only that position from its parent's siblings and leaves every other lookup unchanged; calling it for a position already removed never corrupts the table.", "quantifier": "all element lists, all positions, all hash orderings, all sequences of calls", "why_tests_cant": "the out-of-range walk of the table depends on hash layout", "anchors": ["SRCC/incl/snakstruct_incl.cpp SnakStruct::DeHashParent,memberIsHashParent"]}
{"id": "C07", "title": "Modification tracking reports exactly what was touched", "statement": "After SetNoModif and any sequence of reads and writable accesses, ReturnModifInd lists exactly the indices of elements accessed through the writable operator, and ReturnModifLog flags exactly the same elements.", "quantifier": "all element lists and access sequences", "why_tests_cant": "all access sequences", "anchors": ["SRCC/incl/snakstruct_incl.cpp ModiftrackArray::SetNoModif,ReturnModifInd,ReturnModifLog", "SRCC/incl/arraystructures.hpp ModiftrackArray::operator[]"]}
{"id": "C08", "title": "Hashed vectors behave like the list they store", "statement": "For a hashed vector whose table is current, find(k) is -1 iff k is absent and otherwise a position of k, findall(k) is exactly the set of positions of k, count(k) is the number of occurrences, and push_back keeps all three exact.", "quantifier": "all vectors, keys, push sequences and hash orderings", "why_tests_cant": "all histories and orderings", "anchors": ["SRCC/incl/arraystructures_incl.cpp HashedVector::find,findall,count,push_back,GenerateHash,HashVector,FindSub,FindSubList"]}
{"id": "C09", "title": "Keyed accumulation is a finite map", "statement": "Accumulating values into a keyed pair vector through operator() gives, for every key, the sum of the contributions made to that key and the default value for keys never written, and the sparse triplet built on it places each entry at the row and column it was accumulated for.", "quantifier": "all sequences of (row, column, value) contributions within the matrix dimensions", "why_tests_cant": "all write sequences and all matrix sizes", "anchors": ["SRCC/incl/arraystructures.hpp HashedVectorPair", "SRCC/src/rsvs/RSVScalc.cpp SparseMatrixTriplet::operator[],SetEqual", "SRCC/incl/RSVScalc.hpp SparseMatrixTriplet"]}
{"id": "C10", "title": "sort then unique yields the set of values", "statement": "sort followed by unique leaves a strictly increasing vector with exactly the values of the input; connectivity tightening therefore never loses or invents a reference and is idempotent.", "quantifier": "all integer vectors and all meshes", "why_tests_cant": "all inputs", "anchors": ["SRCC/incl/arraystructures_incl.cpp sort,unique", "SRCC/incl/mesh.hpp volu::TightenConnectivity,surf::TightenConnectivity,edge::TightenConnectivity,vert::TightenConnectivity"]}
{"id": "C11", "title": "Merging two meshes never aliases objects", "statement": "After MakeCompatible_inplace and Concatenate, no two objects of the same kind share an index, every reference inside each part still designates the same object of that part, and references to the exterior (0) still designate the exterior.", "quantifier": "all pairs of meshes with positive indices and up to date maxima", "why_tests_cant": "all pairs of meshes", "anchors": ["SRCC/src/grid/mesh.cpp mesh::MakeCompatible_inplace,ChangeIndices,Concatenate,GetMaxIndex", "vert/edge/surf/volu ::ChangeIndices"]}
{"id": "C12", "title": "Replacing an index keeps connectivity two-way", "statement": "SwitchIndex(type, old, new) on a mesh whose references are mutual redirects every reference to old into a reference to new, leaves references between other objects unchanged and keeps all references to new mutual.", "quantifier": "all mutually connected meshes, all pairs of existing objects, each object type", "why_tests_cant": "all meshes", "anchors": ["SRCC/src/grid/mesh.cpp mesh::SwitchIndex"]}
{"id": "C13", "title": "Removing an index removes every reference to it", "statement": "After RemoveIndex(type, i) no object refers to object i of that type, references between other objects are unchanged, and a surface that loses a volume still lists two sides.", "quantifier": "all meshes, all indices, each object type", "why_tests_cant": "all meshes", "anchors": ["SRCC/src/grid/mesh.cpp mesh::RemoveIndex"]}
{"id": "C14", "title": "Connectivity check is sound and complete", "statement": "TestConnectivity returns 0 exactly when every reference designates an existing object (0 allowed where the exterior is legal) and no object lacks the references it must have.", "quantifier": "all meshes", "why_tests_cant": "all meshes", "anchors": ["SRCC/src/grid/mesh.cpp mesh::TestConnectivity"]}
{"id": "C15", "title": "Two-way connectivity check reports one-way references", "statement": "TestConnectivityBiDir returns 0 only if every reference is mutual.", "quantifier": "all meshes", "why_tests_cant": "a mesh with only one-way faults must be constructed", "anchors": ["SRCC/src/grid/mesh.cpp mesh::TestConnectivityBiDir"]}
{"id": "C16", "title": "Border flags match the exterior", "statement": "After SetBorders on a 3D mesh a surface is a border iff one of its sides is the exterior, an edge iff one of its surfaces is a border, a vertex iff one of its edges is a border, and a volume iff it touches a border vertex or border surface; the analogous statement holds in 2D.", "quantifier": "all meshes with valid references", "why_tests_cant": "all meshes", "anchors": ["SRCC/src/grid/mesh.cpp mesh::SetBorders"]}
{"id": "C17", "title": "Reordering is an isomorphism", "statement": "ReOrder renumbers every object 1..n and maps every reference accordingly, so the mesh before and after are isomorphic and exterior references stay exterior.", "quantifier": "all meshes with unique indices and valid references", "why_tests_cant": "all meshes", "anchors": ["SRCC/src/grid/mesh.cpp mesh::ReOrder"]}
{"id": "C18", "title": "Cropping leaves no dangling reference", "statement": "After Crop removes a set of objects, no remaining object refers to a deleted object.", "quantifier": "all connected meshes, all deletion lists, all deletion types", "why_tests_cant": "depends on whether the exterior appears among the deleted volumes", "anchors": ["SRCC/src/grid/mesh.cpp mesh::Crop"]}
{"id": "C19", "title": "Vertex flood fill finds connected components", "statement": "ConnectedVertex terminates, labels every vertex 1..n where n is the returned count, and two vertices get the same label iff they are joined by a path of edges; vertices given a non-zero label by the caller act as barriers and keep it.", "quantifier": "all meshes with valid references, all initial labellings", "why_tests_cant": "all graphs", "anchors": ["SRCC/src/grid/mesh.cpp mesh::ConnectedVertex"]}
{"id": "C20", "title": "Volume flood fill finds connected regions", "statement": "ConnectedVolumes terminates, labels every volume and gives two volumes the same label iff a path of shared surfaces that avoids boundary surfaces joins them.", "quantifier": "all meshes with valid references, all boundary surface sets", "why_tests_cant": "all graphs", "anchors": ["SRCC/src/grid/mesh.cpp mesh::ConnectedVolumes"]}
{"id": "C21", "title": "Edge ordering yields a cycle of the same edges", "statement": "When edge ordering of a surface reports success, the edges are a permutation of the originals and consecutive edges share a vertex; when it truncates, the kept prefix is a chain of distinct original edges; a simple closed polygon is always reported ordered.", "quantifier": "all edge lists and edge-vertex relations", "why_tests_cant": "all polygons and all orders of the edges", "anchors": ["SRCC/src/grid/mesh.cpp OrderEdgeList,OrderList,surf::OrderEdges"]}
{"id": "C22", "title": "Ordered vertices follow the ordered edges", "statement": "For an ordered closed surface with at least 3 edges, OrderedVerts returns one vertex per edge, all distinct, such that consecutive vertices are exactly the end points of an edge of the surface.", "quantifier": "all ordered closed polygons", "why_tests_cant": "all polygons and edge orientations", "anchors": ["SRCC/src/grid/mesh.cpp surf::OrderedVerts"]}
{"id": "C23", "title": "Object search by connectivity is exact", "statement": "EdgeFromVerts(v1,v2) returns an edge joining v1 and v2 iff one exists, and SurfFromEdges returns a surface bounded by the given two edges iff one exists, honouring the requested repetition policy.", "quantifier": "all meshes, all query pairs", "why_tests_cant": "all meshes", "anchors": ["SRCC/src/grid/mesh.cpp mesh::EdgeFromVerts,SurfFromEdges,VertFromVertEdge"]}
{"id": "C24", "title": "Orientation comparison is antisymmetric", "statement": "For cyclically adjacent entries p1,p2 of a duplicate-free cycle of length at least 3, OrderMatchLists reports +1 or -1 according to which follows which, swapping the arguments flips the sign, and comparing two lists gives +1 iff both traverse the shared pair in the same direction.", "quantifier": "all cycles and adjacent pairs", "why_tests_cant": "wrap-around cases for every length", "anchors": ["SRCC/src/grid/mesh.cpp OrderMatchLists"]}
{"id": "C25", "title": "Block grid numbering is a bijection with mutual references", "statement": "BuildBlockGrid with dimensions (nx,ny,nz) numbers vertices, edges, faces and cells 1..count without gaps, all references are in range, each cell lists its 6 faces, each face its 4 edges and 2 sides, each edge its 2 vertices, and all references are mutual.", "quantifier": "all positive dimensions nx,ny,nz", "why_tests_cant": "all grid sizes", "anchors": ["SRCC/src/grid/voxel.cpp BuildBlockGrid,BuildBlockVolu,BuildBlockSurf,BuildBlockEdge,BuildBlockVert"]}
{"id": "C26", "title": "Block grid positions decode exactly", "statement": "The cell and vertex position computed from its number is the unique (i,j,k) with number = i + j*nx + k*nx*ny + 1, for every grid that fits in an int.", "quantifier": "all dimensions whose product fits in 32 bits, all numbers", "why_tests_cant": "single precision rounding only shows beyond 2^24 elements", "anchors": ["SRCC/src/grid/voxel.cpp BuildBlockVolu,BuildBlockVert"]}
{"id": "C27", "title": "Mesh files round-trip", "statement": "Reading a file written from a mesh reproduces its indices, border flags, references, fills, targets and coordinates (to the printed precision).", "quantifier": "all meshes", "why_tests_cant": "all meshes and values", "anchors": ["SRCC/src/grid/mesh.cpp volu/surf/edge/vert ::read,write; mesh::read,write", "SRCC/incl/arraystructures_incl.cpp ArrayStruct::read,write"]}
{"id": "C28", "title": "Snake files preserve the snake", "statement": "Reading back a written snake reproduces every snaxel (position along edge, velocity, edge, end points, order), snake edge and surface and the connectivity.", "quantifier": "all snakes", "why_tests_cant": "precision loss depends on the value", "anchors": ["SRCC/src/snake/snake.cpp snax::read,write; snake::read,write"]}
{"id": "C29", "title": "Scaling maps the mesh onto the requested box", "statement": "After Scale(domain) the bounding box of the mesh equals the requested domain in every non-degenerate direction, flat directions are translated to the lower bound, affine relations are kept, and the returned transformation reproduces the change.", "quantifier": "all non-empty meshes and all domains, in exact arithmetic", "why_tests_cant": "all coordinates", "anchors": ["SRCC/src/grid/mesh.cpp mesh::Scale,LinearTransform,BoundingBox"]}
{"id": "C30", "title": "Edge lengths follow vertex moves", "statement": "edge Length always equals the distance between the current positions of its end points, after any history of scaling and transformation.", "quantifier": "all meshes and transformation histories", "why_tests_cant": "requires a cache filled before the move", "anchors": ["SRCC/src/grid/mesh.cpp edge::Length,SetLength,mesh::LinearTransform,SetEdgeLengths,InvalidateEdgeLength"]}
{"id": "C31", "title": "Cached vector norm is correct", "statement": "After any sequence of coordvec operations GetNorm returns the Euclidean norm of the current components.", "quantifier": "all vectors, all operation sequences, all scalars", "why_tests_cant": "all histories", "anchors": ["SRCC/src/grid/mesh.cpp coordvec::mult,div,add,substract,flipsign,Normalize,CalcNorm,GetNorm,cross"]}
{"id": "C32", "title": "Vector algebra identities", "statement": "cross is antisymmetric and orthogonal to both operands, |cross|^2 + dot^2 = |a|^2|b|^2, the plane normal is orthogonal to the plane's points, and signed plane distance is 0 exactly on the plane.", "quantifier": "all vectors, in exact arithmetic", "why_tests_cant": "all real inputs", "anchors": ["SRCC/src/grid/mesh.cpp coordvec::cross,dot,PlaneNormal,VertexDistanceToPlane"]}
{"id": "C33", "title": "Batch plane distance agrees with the single version", "statement": "VerticesDistanceToPlane gives for each vertex the value VertexDistanceToPlane gives for it, without reading outside its inputs.", "quantifier": "all planes and vertex lists", "why_tests_cant": "second and later vertices", "anchors": ["SRCC/src/grid/mesh.cpp VerticesDistanceToPlane,VertexDistanceToPlane"]}
{"id": "C34", "title": "Snaxels stay on their edge", "statement": "After any sequence of distance updates every snaxel distance is within [0,1] and no single update moves a snaxel by more than the step limit.", "quantifier": "all snakes, velocities, time steps, limits and update sequences", "why_tests_cant": "all histories", "anchors": ["SRCC/src/snake/snake.cpp snake::UpdateDistance"]}
{"id": "C35", "title": "Snake vertices lie on mesh edges", "statement": "After UpdateCoord each snake vertex is the point of its mesh edge at fraction d from fromvert: at the end points when d is 0 or 1 and inside the bounding box of the end points otherwise.", "quantifier": "all snakes", "why_tests_cant": "all positions", "anchors": ["SRCC/src/snake/snake.cpp snake::UpdateCoord"]}
{"id": "C36", "title": "Time steps prevent crossing on an edge", "statement": "If every snaxel on an edge advances by no more than the time step computed for it, two snaxels on the same edge never swap order.", "quantifier": "all pairs of snaxels on an edge, all velocities and directions", "why_tests_cant": "continuous quantities", "anchors": ["SRCC/src/snake/snake.cpp SnaxImpactDt,snaxarray::CalculateTimeStepOnEdge,snake::CalculateTimeStep"]}
{"id": "C37", "title": "Shape-conserving time step limits every snaxel", "statement": "With shape conservation on, the common time step is such that no snaxel moves further than the given distance.", "quantifier": "all snakes and velocities", "why_tests_cant": "sign of the velocity", "anchors": ["SRCC/src/snake/snake.cpp snake::CalculateTimeStep"]}
{"id": "C38", "title": "Flip is a position-preserving involution", "statement": "Flipping a snake twice restores it, and flipping once leaves every snaxel at the same physical location with the same physical velocity.", "quantifier": "all snakes, in exact arithmetic", "why_tests_cant": "all snakes", "anchors": ["SRCC/src/snake/snake.cpp snake::Flip,UpdateCoord"]}
{"id": "C39", "title": "Inside status of merged snakes", "statement": "Concatenating snakes marks a mesh vertex as inside according to the documented union/intersection rule of the two inputs and their flips, for every vertex.", "quantifier": "all pairs of snakes on one mesh", "why_tests_cant": "all flag combinations and sizes", "anchors": ["SRCC/src/snake/snake.cpp snake::Concatenate,CompareSnakeInternalStatus"]}
{"id": "C40", "title": "Order on edge is the rank along the edge", "statement": "OrderOnEdge numbers the snaxels of each edge 1..n by increasing position from the lower-numbered end point.", "quantifier": "all snakes", "why_tests_cant": "all numbers of snaxels, directions and ties", "anchors": ["SRCC/src/snake/snake.cpp snaxarray::OrderOnEdge"]}
{"id": "C41", "title": "Arrival detection covers both ends", "statement": "SnaxImpactDetection reports every snaxel that has reached an end of its edge while moving towards it, reports each collision symmetrically, and reports nothing else.", "quantifier": "all snakes", "why_tests_cant": "direction and order combinations", "anchors": ["SRCC/src/snake/snake.cpp snake::SnaxImpactDetection,snaxarray::DetectImpactOnEdge"]}
{"id": "C42", "title": "Internal vertices are those enclosed by the snake", "statement": "AssignInternalVerts terminates and marks a mesh vertex inside iff it can be reached from some snaxel's origin vertex along edges carrying no snaxel.", "quantifier": "all snakes whose snaxels lie on edges of their origin vertex", "why_tests_cant": "all graphs", "anchors": ["SRCC/src/snake/snake.cpp snake::AssignInternalVerts,FindBlockSnakeMeshVerts"]}
{"id": "C43", "title": "Smoothing step respects its limits", "statement": "The validated equilibrium distance lies between the smaller and the larger of its two limits and is unchanged when it is already between them.", "quantifier": "all steps in (0,1) and all distances", "why_tests_cant": "all reals", "anchors": ["SRCC/src/snake/snake.cpp ValidateEquilibrateD"]}
{"id": "C44", "title": "Mesh family links are symmetric", "statement": "Through any history of adding and removing parents and children, m lists p as parent iff p lists m as child, and the parent-connection list stays aligned with the parent list.", "quantifier": "all histories of family operations on any set of meshes", "why_tests_cant": "all histories", "anchors": ["SRCC/src/grid/mesh.cpp meshdependence::AddParent,AddChild,RemoveParent,RemoveChild,mesh::AddParent,AddChild,RemoveFromFamily"]}
{"id": "C45", "title": "Parent boundary detection", "statement": "A surface is reported on the boundary of a parent mesh iff its two sides belong to different cells of that parent (the exterior counting as a different cell).", "quantifier": "all meshes and parents", "why_tests_cant": "all meshes", "anchors": ["SRCC/src/grid/mesh.cpp mesh::SurfInParent,SurfOnParentBound"]}
{"id": "C46", "title": "Values return to the parent cells they came from", "statement": "ReturnParentMap assigns each child volume the position of its parent cell's constraint, the mapping has no two constraints at one position, and MapVolu2Parent writes the value of each constraint to exactly that parent cell.", "quantifier": "all families and value vectors", "why_tests_cant": "all families", "anchors": ["SRCC/src/grid/mesh.cpp mesh::ReturnParentMap,MapVolu2Parent,MapVolu2Self,CountVoluParent"]}
{"id": "C47", "title": "Coarsening keeps a valid mesh", "statement": "CoarsenMesh with a valid mapping produces a mesh in which each group of merged cells is one cell and never reads outside an object's references.", "quantifier": "all meshes and valid mappings", "why_tests_cant": "merged cells that share a face", "anchors": ["SRCC/src/grid/meshrefinement.cpp CoarsenMesh,CartesianMapping"]}
{"id": "C48", "title": "Target fill reading cycles through the file", "statement": "LoadTargetFill gives cell i the (i mod k)-th of the k numbers in the file.", "quantifier": "all files and cell counts", "why_tests_cant": "trailing whitespace and shorter or longer files", "anchors": ["SRCC/src/grid/mesh.cpp mesh::LoadTargetFill"]}
{"id": "C49", "title": "Point-in-cell sample lies inside", "statement": "CoordInVolume returns for each cell the average of its vertex coordinates, and internal layer points are convex combinations of cell points.", "quantifier": "all meshes", "why_tests_cant": "all meshes", "anchors": ["SRCC/src/grid/meshprocessing.cpp CoordInVolume,VolumeInternalLayers,VolumeCentroids"]}
{"id": "C50", "title": "Mean edge length at a vertex", "statement": "CalculateVertexMeanEdgeLength lies between the minimum and maximum edge length at that vertex.", "quantifier": "all meshes", "why_tests_cant": "all meshes", "anchors": ["SRCC/src/grid/meshprocessing.cpp CalculateVertexMeanEdgeLength,CalculateVertexMinEdgeLength,CalculateVertexMaxEdgeLength"]}
{"id": "C51", "title": "Off-border search terminates", "statement": "GetOffBorderVert returns for every mesh.", "quantifier": "all meshes", "why_tests_cant": "non-termination cannot be observed by a passing test", "anchors": ["SRCC/src/grid/mesh.cpp mesh::GetOffBorderVert"]}
{"id": "C52", "title": "Configuration round-trips and partial configurations override only what they name", "statement": "Reading a written configuration reproduces it; reading a partial configuration changes exactly the named leaves and keeps every other value.", "quantifier": "all parameter sets and all partial files", "why_tests_cant": "all subsets of keys", "anchors": ["SRCC/src/parameters.cpp param::io::read,write,readflat,writeflat,to_json,from_json", "SRCC/src/interfaces/rsvsjson.cpp flatupdate"]}
{"id": "C53", "title": "Snake edge merge search stays in range", "statement": "Identifying snake edges that share a surface never reads outside the count vector.", "quantifier": "all snakes", "why_tests_cant": "absence of out-of-range reads on every path", "anchors": ["SRCC/src/snake/snakeengine.cpp IndentifyEdgeSameSurf"]}
{"id": "C54", "title": "Closed containers partition the snake", "statement": "ForceCloseContainers gives every connected block of the mesh its own volume (3D) or surface (2D), numbered 1..n, and each surface's (edge's) first side is the block of its vertices.", "quantifier": "all meshes with valid references", "why_tests_cant": "all meshes", "anchors": ["SRCC/src/grid/mesh.cpp mesh::ForceCloseContainers"]}
{"id": "C55", "title": "Vertex grouping merges exactly the close vertices", "statement": "GroupCloseVertices gives two vertices the same group iff they are joined by a path of edges shorter than the tolerance, and MergeGroupedVertices redirects every member to one representative.", "quantifier": "all meshes and tolerances", "why_tests_cant": "all meshes", "anchors": ["SRCC/src/grid/meshprocessing.cpp GroupCloseVertices,TestVertClose", "SRCC/src/grid/mesh.cpp mesh::MergeGroupedVertices"]}
{"id": "C56", "title": "Line-sphere intersection solves the sphere equation", "statement": "Both parameters returned by IntersectLineSphere put the point of the line on the sphere, they are ordered, and no intersection is reported iff the line misses the sphere.", "quantifier": "all lines, centres and radii in exact arithmetic", "why_tests_cant": "all reals", "anchors": ["SRCC/src/grid/meshprocessing.cpp IntersectLineSphere"]}
{"id": "C57", "title": "Second derivatives combine by the chain rule", "statement": "Deriv2ndChainScalar returns the sum over components of gradient times component Hessian plus the congruence of the Hessian, for all matching sizes.", "quantifier": "all matrices of matching sizes", "why_tests_cant": "all sizes", "anchors": ["SRCC/src/rsvs/matrixtools.cpp VecBy3DimArray,Deriv1stChainScalar,Deriv2ndChainScalar"]}
{"id": "C58", "title": "Border splitting partitions the references", "statement": "Splitting a border surface's edges (volume's surfaces) into inside and outside lists yields two order-preserving lists whose union is the original with nothing lost or duplicated.", "quantifier": "all surfaces and volumes and all inside/outside markings", "why_tests_cant": "all inputs", "anchors": ["SRCC/src/grid/mesh.cpp meshhelp::SplitBorderSurfaceEdgeind,SplitBorderVolumeSurfind"]}
{"id": "C59", "title": "Newly spawned snaxels are slotted into the order of their edge", "statement": "After PrepareForUse has called snaxarray::ReorderOnEdge, every snaxel has a positive orderedge, no two snaxels of a mesh edge share one, orders agree with the positions measured from the lower-numbered end vertex, snaxels that had an order before keep their relative order, and on an edge whose snaxels had the orders 1..n they are again 1..n.", "quantifier": "every snaxel array and every order in which the hash table lists the snaxels of an edge", "why_tests_cant": "The result depends on how many snaxels are new, at which end each of them sits, in which direction it travels, and on which orders earlier deletions left behind; a test fixes one such history.", "anchors": ["SRCC/src/snake/snake.cpp:1071-1137", "SRCC/src/snake/snake.cpp:209-217"]}
{"id": "C60", "title": "ValidateDistance keeps a snaxel between its neighbours", "statement": "snax::ValidateDistance puts a snaxel on the correct side (according to orderedge) of every other snaxel of its edge, does not move it when it already is there, keeps it inside the edge and changes nothing but its distance.", "quantifier": "every set of snaxels on an edge, whatever direction each of them travels in, whose members are themselves in order", "why_tests_cant": "The correction folds over the other snaxels one after the other and each step may undo an earlier one; that it does not must be shown for every number, order and direction of snaxels.", "anchors": ["SRCC/src/snake/snake.cpp:2194-2257"]}
{"id": "C61", "title": "Block grid vertices are distinct points one cell apart", "statement": "The vertices of a block grid are distinct points of the unit cube, and the two ends of every edge differ along exactly one axis by one cell width.", "quantifier": "all dimensions, all vertices and edges", "why_tests_cant": "all grid sizes", "anchors": ["SRCC/src/grid/voxel.cpp BuildBlockVert,BuildBlockEdge"]}
{"id": "C62", "title": "Cell centre lies in the cell", "statement": "CalcCentreVolu returns a point of the convex hull of the vertices of the cell.", "quantifier": "all meshes and cells", "why_tests_cant": "all geometries", "anchors": ["SRCC/src/grid/mesh.cpp mesh::CalcCentreVolu"]}
{"id": "C63", "title": "Pseudo centroids are weighted averages", "statement": "The pseudo centroid of a surface is the average of its edge midpoints weighted by edge length, that of a cell the average of those of its faces weighted by perimeter, and both lie inside.", "quantifier": "all meshes", "why_tests_cant": "all geometries and scales", "anchors": ["SRCC/src/grid/mesh.cpp surf::PseudoCentroid,volu::PseudoCentroid"]}
{"id": "C64", "title": "Signed logarithmic scale keeps order", "statement": "SignedLogScale keeps zero and order.", "quantifier": "all numbers", "why_tests_cant": "a narrow range of numbers near DBL_EPSILON decides it", "anchors": ["SRCC/src/warning.cpp rsvs3d::SignedLogScale"]}
{"id": "C65", "title": "Distance to a plane is a distance", "statement": "VertexDistanceToPlane returns the distance of the vertex from the plane up to sign.", "quantifier": "all planes and points", "why_tests_cant": "all reals", "anchors": ["SRCC/src/grid/mesh.cpp VertexDistanceToPlane"]}
{"id": "C66", "title": "Parent boundary detection in two dimensions", "statement": "In a two-dimensional mesh an edge is reported on the boundary between parent cells iff its two surfaces lie in parent cells of which exactly one has the bound as its target.", "quantifier": "all two-dimensional meshes, parents and targets", "why_tests_cant": "all meshes; the list is silently empty, which a test that does not know the answer cannot notice", "anchors": ["SRCC/src/grid/mesh.cpp mesh::EdgeOnParentBound,ElmOnParentBound"]}
{"id": "C67", "title": "Inner edges and vertices found when cutting along a box", "statement": "FindEdgeInFromSurfOut returns, in order, exactly the edges of the given surfaces that are not marked outside; FindVertInFromEdgeOut returns, sorted and without repeats, the ends of the given edges that are not marked outside: all of them when there are exactly two, and otherwise those that are also ends of the edges to check.", "quantifier": "all meshes, markings and lists of known surfaces or edges", "why_tests_cant": "all meshes and all markings", "anchors": ["SRCC/src/grid/mesh.cpp meshhelp::FindEdgeInFromSurfOut,FindVertInFromEdgeOut"]}
{"id": "C68", "title": "New border vertices lie where the edge leaves the box", "statement": "PlaceBorderVertex, for an inner point in the box and an outer point not in it, returns the last point of the segment that is in the box: it is on the surface of the box, every earlier point of the segment is in the box and no later one is.", "quantifier": "all boxes and all pairs of an inside and an outside point", "why_tests_cant": "all reals, including directions parallel to faces where the quotient is infinite or undefined", "anchors": ["SRCC/src/grid/mesh.cpp meshhelp::PlaceBorderVertex", "SRCC/incl/mesh.hpp meshhelp::ProjectRay"]}
{"id": "C69", "title": "CartesianMapping groups cells by the box their centre lies in", "statement": "CartesianMapping returns, for every cell, the first cell whose centre (mean of its vertices) lies in the same box of the regular split of the mesh's bounding box, so two cells share a representative exactly when they share a box; used with CoarsenMesh this leaves one cell for each occupied box. Every mesh accepted by the caller gives a mapping.", "quantifier": "for every 2D or 3D mesh with consistent connectivity, every placement of its vertices and every number of boxes in each direction", "why_tests_cant": "It ranges over all meshes, all real coordinates and all box counts; a test only visits chosen grids and cannot see that no pair of cells is ever mis-grouped, nor that a flat direction always divides zero by zero.", "anchors": ["SRCC/src/grid/meshrefinement.cpp:202-324", "SRCC/src/rsvs/RSVSintegration.cpp:378-419"]}
{"id": "C70", "title": "Settings given as key/value strings change exactly the named values", "statement": "updatefromstring sets each value named by its reference to the text behind the separator, read with the type of that value, the last string for a reference counting; every other value stays, and a string without the separator or with an unknown key is counted as a failure and has no effect.", "quantifier": "for every parameter set, every list of strings and every conversion of texts to numbers", "why_tests_cant": "It ranges over all lists of strings, references and texts; a test fixes a few of them and cannot see that no unnamed value is ever disturbed, nor which unknown keys make the update throw.", "anchors": ["SRCC/src/parameters.cpp:633-697"]}
{"id": "C71", "title": "Volumes and their derivatives", "statement": "For every history of assigning points and calling Calc or CalcFD on a Volume object, after Calc the value is the signed volume of the tetrahedron spanned by the origin and the three points last assigned, the Jacobian holds its nine first and the Hessian its 81 second derivatives with respect to the coordinates; CalcFD leaves the same Jacobian; and the sum over the triangles of a closed surface does not depend on the origin.", "quantifier": "for all points, all histories of calls and all closed triangulated surfaces", "why_tests_cant": "All real coordinates, all orders of calls on one reused object, and every one of the 90 generated entries; a numeric test checks a few points within a tolerance.", "anchors": ["SRCC/src/rsvs/RSVSmath.cpp:12-149,311-400", "SRCC/src/rsvs/RSVSmath_automatic.cpp Volume_f,Volume_df,Volume_ddf"]}
{"id": "C72", "title": "Areas and their derivatives", "statement": "For every history of calls on an Area object, after Calc the value is the area of the triangle last assigned, and Jacobian and Hessian are the first and second derivatives of that value.", "quantifier": "for all triangles, all histories and all values of the epsilon", "why_tests_cant": "All triangles including thin ones and all histories; the Jacobian belongs to a slightly different function, which a test with a tolerance cannot tell from the right one.", "anchors": ["SRCC/src/rsvs/RSVSmath.cpp:402-435", "SRCC/src/rsvs/RSVSmath_automatic.cpp Area_f,Area_df,Area_ddf", "SRCC/incl/RSVSmath_automatic.hpp:11-40"]}
{"id": "C73", "title": "Lengths and their derivatives", "statement": "For every history of calls on a LengthEdge object, after Calc the value is the distance of the two points last assigned and, when they differ, Jacobian and Hessian hold its first and second derivatives.", "quantifier": "for all pairs of points and all histories", "why_tests_cant": "All reals and all 42 generated entries.", "anchors": ["SRCC/src/rsvs/RSVSmath.cpp:437-448", "SRCC/src/rsvs/RSVSmath_automatic.cpp LengthEdge_f,LengthEdge_df,LengthEdge_ddf"]}
{"id": "C74", "title": "Volumes over snaxels that slide along edges", "statement": "For every history of calls on a Volume2 object, after Calc the value is the signed volume over the three points at fractions d0, d1, d2 of the three edges last assigned, and Jacobian and Hessian are its derivatives with respect to d0, d1, d2.", "quantifier": "for all edges, fractions and histories", "why_tests_cant": "All reals and all orders of calls on a reused object; two entries of the Hessian are never written and rely on what the array held before.", "anchors": ["SRCC/src/rsvs/RSVSmath.cpp:754-768", "SRCC/src/rsvs/RSVSmath_automatic.cpp Volume2_f,Volume2_df,Volume2_ddf"]}
{"id": "C75", "title": "Centre of an outline and its gradient", "statement": "After SurfCentroid::Calc on a polygon of four corners or more the value is the centre of mass of its outline (each edge's midpoint weighted by its length), and the Jacobian differs from the derivatives of that centre only by an amount bounded in terms of the two smoothing constants; Calc succeeds on all such polygons; later calls on the same object do not spoil this.", "quantifier": "for all polygons with four or more corners, all smoothing constants, all histories of assign, Calc and CalcFD", "why_tests_cant": "All real coordinates and any number of corners; the gradient entries are generated code and the error bound has to hold for every shape.", "anchors": ["SRCC/src/rsvs/RSVSmath.cpp:454-735", "SRCC/src/rsvs/RSVSmath_automatic.cpp SurfCentroid4_df,SurfCentroid5_df,SurfCentroid6_df,SurfCentroidSelf_df"]}
{"id": "C76", "title": "Second derivatives of the centre of an outline", "statement": "After SurfCentroid::Calc the Hessian holds the second derivatives of the centre of the outline with respect to every pair of corner coordinates.", "quantifier": "for all polygons and all histories of calls", "why_tests_cant": "Every pair of corners of every polygon; finite differences cannot settle which entries are exactly zero.", "anchors": ["SRCC/src/rsvs/RSVSmath.cpp:560-735", "SRCC/src/rsvs/RSVSmath_automatic.cpp SurfCentroidConnec_ddf,SurfCentroidNoConnec_ddf"]}
{"id": "C77", "title": "Smoothing constants reach every formula", "statement": "After rsvsmath::SetEnvironmentEpsilon the values given for the centroid are those used by the centroid derivatives.", "quantifier": "for all constants, polygons and histories", "why_tests_cant": "The constants are static per translation unit, so the effect depends on which file a formula is compiled in, for every input.", "anchors": ["SRCC/src/rsvs/RSVSmath.cpp SetEnvironmentEpsilon", "SRCC/src/rsvs/RSVSmath_automatic.cpp", "SRCC/incl/RSVSmath_automatic.hpp"]}
{"id": "C78", "title": "The variables of the optimisation are the snaxels that can move", "statement": "After PrepTriangulationCalc the design variables are exactly the snaxels that are not frozen and the frozen ones with a free snaxel at the end of one of their edges, each once; every sum, gradient, Hessian and step is 0, and the multipliers are kept if there are as many constraints as before and are 0 otherwise. ReturnVelocities gives each snaxel the step of its own variable and 0 to every other snaxel.", "quantifier": "for all snakes and connectivities", "why_tests_cant": "Which snaxels are variables depends on the freeze flags and the connectivity of the whole snake; a wrong position in the map swaps the steps of two snaxels.", "anchors": ["SRCC/src/rsvs/RSVScalc.cpp PrepTriangulationCalc, SnakDVcond, BuildDVMap, ReturnVelocities"]}
{"id": "C79", "title": "The constraint vector is the volume in each cell and its Jacobian the derivative of it", "statement": "After CalculateTriangulation each entry of the constraint vector is the signed sum of the volumes under the triangles of its cells, and each entry of its Jacobian is the derivative of that sum with respect to the position of a snaxel along its edge, through surface centres as well, up to the stated error of the smoothing constants.", "quantifier": "for all snakes, triangulations, cell maps and positions", "why_tests_cant": "The Jacobian is assembled by chain rule from generated code over index maps; a single wrong row or sign gives a plausible but wrong descent direction.", "anchors": ["SRCC/src/rsvs/RSVScalc.cpp CalculateTriangulation", "SRCC/src/rsvs/RSVScalc_core.cpp CalcTriangle, CalcTriangleFD", "SRCC/src/rsvs/RSVScalctools.cpp TrianglePositionDerivatives, AssignConstraintDerivativesFullMath"]}
{"id": "C80", "title": "The objective is the area of the snake and its gradient the derivative of it", "statement": "After CalculateTriangulation the objective is the sum of the areas of the dynamic triangles, and its gradient is the derivative of the area (of the area smoothed by the constant of the environment), up to the stated error.", "quantifier": "for all snakes, triangulations and positions", "why_tests_cant": "The gradient goes through the generated area formula and the centroid Jacobian for every polygon size.", "anchors": ["SRCC/src/rsvs/RSVScalc_core.cpp CalcTriangle", "SRCC/src/rsvs/RSVScalctools.cpp"]}
{"id": "C81", "title": "The Hessians are the second derivatives", "statement": "After CalculateTriangulation the constraint Hessian is the second derivative of the sum of the volumes times their multipliers, and the objective Hessian that of the smoothed area, up to the values left out of sparse matrices.", "quantifier": "for all snakes, triangulations, multipliers and positions", "why_tests_cant": "A misplaced entry of a Hessian only slows or bends convergence, which no example run reveals.", "anchors": ["SRCC/src/rsvs/RSVScalc_core.cpp CalcTriangle", "SRCC/src/rsvs/RSVScalctools.cpp Assign...", "SRCC/src/maths/matrixtools.cpp Deriv2ndChainScalar"]}
{"id": "C82", "title": "Every derivative method computes the same problem, and it is always defined", "statement": "CalculateTriangulation gives the same values, derivatives and active sets with every derivMethod, has no undefined behaviour when the elements named by the triangulation exist, and marks as active exactly the variables and constraints that some triangle depends on.", "quantifier": "for all triangulations, methods and states", "why_tests_cant": "The methods are three copies of the same code; a difference shows only for particular triangles.", "anchors": ["SRCC/src/rsvs/RSVScalc.cpp CalculateTriangulation", "SRCC/src/rsvs/RSVScalc_core.cpp CalcTriangle, CalcTriangleFD, CalcTriangleDirectVolume"]}
{"id": "C83", "title": "Multipliers are brought within the limit", "statement": "ResizeLagrangianMultiplier leaves each multiplier that is a number within [-limit, limit] unchanged, brings every other one (infinite ones too) to the nearest end and NaN to 0; isLarge is raised exactly when one was outside the limit and isNan exactly when one was NaN. With the default infinite limit only NaN changes. (False for a negative limit: the result is then outside it and of the other sign.)", "quantifier": "for all limits and lists of multipliers, infinite and NaN values included", "why_tests_cant": "NaN and infinities go through comparisons that are all false; examples cover a few combinations only.", "anchors": ["SRCC/incl/SQPstep.hpp ResizeLagrangianMultiplier"]}
{"id": "C84", "title": "The step solves the equations of the optimisation problem", "statement": "When the decompositions solve the systems they are given, the reduced problem is well posed and its multipliers are within the limit, CheckAndCompute gives the step and the multipliers of the quadratic model on the active variables and constraints: the gradient of the Lagrangian vanishes and every active constraint reaches its target to first order, and no other step that does so has a smaller model of the objective. (False when a multiplier exceeds the limit: the shortened multiplier is used without a warning.)", "quantifier": "for all problems, active sets, sizes and calculation methods", "why_tests_cant": "The step comes from two nested solves and a reduction to active entries; an index or sign error gives another plausible step.", "anchors": ["SRCC/src/rsvs/RSVScalc_SQP.cpp CheckAndCompute, ComputeSQPstep, SkipConstrObjFun", "SRCC/incl/SQPstep.hpp ResizeLagrangianMultiplier, SQPstep, SQPstep_sparse, SQPsens, SQPsens_sparse"]}
{"id": "C85", "title": "The step is always defined, changes only active entries, and falls back when a decomposition fails", "statement": "With dense maths CheckAndCompute has no undefined behaviour for any result of the decompositions; moves of inactive variables keep their value, multipliers of inactive constraints are 0, and no multiplier is NaN or outside the limit. When the multipliers of a method contain NaN the result is that of the default method, and if that fails too, the step is the least-squares step to the targets. (False with sparse maths: a failed factorisation leads to a read of an uninitialised flag.)", "quantifier": "for all problems and for all results of the decompositions", "why_tests_cant": "Failures of the decompositions are rare and depend on rounding.", "anchors": ["SRCC/src/rsvs/RSVScalc_SQP.cpp CheckAndCompute, ComputeSQPstep", "SRCC/incl/SQPstep.hpp ResizeLagrangianMultiplier, SQPstep, SQPstep_sparse, SQPsens, SQPsens_sparse"]}
{"id": "C86", "title": "Sensitivities solve the linearised problem", "statement": "After a successful run with sensitivities each column for an active constraint solves the equations of a step with right-hand side minus its multiplier in its own row, so that it is minus the multiplier times the change of the step per unit change of the target; inactive rows and columns are 0. (False: that it is the change of the step itself, and that the Cholesky method is applied to a positive matrix.)", "quantifier": "for all problems, active sets and multipliers", "why_tests_cant": "Sensitivities are not used by the optimisation itself, so a wrong sign or scale stays unnoticed.", "anchors": ["SRCC/src/rsvs/RSVScalc_SQP.cpp ComputeSQPsens", "SRCC/incl/SQPstep.hpp ResizeLagrangianMultiplier, SQPstep, SQPstep_sparse, SQPsens, SQPsens_sparse"]}
{"id": "C87", "title": "Gradients and sensitivities are handed to the snaxels they belong to", "statement": "ReturnGradient and ReturnSensitivities give each snaxel the logarithmically scaled value of its own design variable and 0 to a snaxel that is no variable, for the selected quantity, and reject numbers at or above the number of constraints (ReturnGradient also below -6). (False for ReturnSensitivities with a negative number, and before sensitivities were computed: both read outside the matrix.)", "quantifier": "for all snakes, selections and results", "why_tests_cant": "A wrong position shows the value of another snaxel in the output.", "anchors": ["SRCC/src/rsvs/RSVScalc.cpp ReturnSensitivities, ReturnGradient"]}
{"id": "C88", "title": "The velocities given to the snaxels drive the volumes to their targets", "statement": "After CalculateVelocities, when every snaxel moves at the velocity it was given, the volume in each active cell changes at the rate that brings it to its target in a unit of time, and snaxels that are no variables are given 0. The fill reported to the mesh is that volume, and the error is the decimal logarithm of its distance to the target, or -16 when they agree to 1e-16.", "quantifier": "for all snakes with plain triangles, cell maps, targets and methods, with dense maths and decompositions that work", "why_tests_cant": "It is the composition of the assembly, the active sets, two nested solves and the map from variables to snaxels; each part can be right and the composition wrong by an index.", "anchors": ["SRCC/src/rsvs/RSVScalc.cpp CalculateVelocities, ReturnConstrToMesh, ReturnVelocities", "SRCC/src/rsvs/RSVScalc_SQP.cpp CheckAndCompute"]}
{"id": "C89", "title": "Triangulating surfaces adds one triangle per side, with fresh numbers", "statement": "TriangulateContainer, called for the surfaces of a mesh, of a snake or for the parts between them, gives every chosen surface with n > 3 corners n triangles that join its sides in order to one new point owned by the surface, and a surface with three corners that triangle itself; each triangle names its surface and carries its two cells with the signs -1 and +1 (none yet for the snake). The new triangles are numbered on from the largest number, the new points are new and distinct, and nothing else changes. A surface with fewer than three edges and an unknown type are refused. TriangulateMesh takes exactly the surfaces between different parent cells; when there is none it takes all.", "quantifier": "for all meshes of closed polygons, lists of positions and earlier triangulations", "why_tests_cant": "The numbers of triangles and points come from running maxima over arrays of any size; a clash or an off-by-one appears only for particular mixes of surfaces and earlier content.", "anchors": ["SRCC/src/snake/triangulate.cpp TriangulateContainer, TriangulateSurface, TriangulateTriSurface, TriangulateMesh"]}
{"id": "C90", "title": "The volumes of the cells of a mesh", "statement": "CalculateMesh gives each cell the sum over its surfaces of the volume between the origin and the surface (with the centre of the outline as the common corner when there are more than three), positive on one side of the surface and negative on the other. Over the whole mesh a surface between two cells cancels. For a cell whose surfaces close up, the volume does not depend on where the mesh is: moving the mesh does not change it.", "quantifier": "for all meshes of closed polygons longer than 1e-15, with any coordinates and translations", "why_tests_cant": "Signs and orders of corners can compensate in symmetric test shapes centred on the origin; invariance for all translations and cancellation for all pairs of cells needs the algebra.", "anchors": ["SRCC/src/rsvs/RSVScalc.cpp CalculateMesh", "SRCC/src/snake/triangulate.cpp SurfaceCentroid_SnakeSurf, CalcTriVertPos", "SRCC/src/rsvs/RSVScalc_core.cpp CalcTriangle"]}
{"id": "C91", "title": "The triangles of the mesh that count as the snake's", "statement": "SetActiveStaticTri makes active exactly the static triangles of the mesh surfaces that the snake does not cross and whose corners are inside the snake (decided by the first corner that is a mesh vertex of the surface's first triangle), each once, and changes nothing else; an uncrossed surface whose first triangle has no mesh vertex is refused.", "quantifier": "for all meshes, inside flags, static triangulations and crossed parts", "why_tests_cant": "The triangles of a surface may lie anywhere in the array and the decision of the first is applied to all; that the result does not depend on the order needs all orders.", "anchors": ["SRCC/src/snake/triangulate.cpp SetActiveStaticTri"]}
{"id": "C92", "title": "Going back from a snaxel reaches the first thing behind it", "statement": "FollowSnaxelDirection, called with any snaxel of a snake whose snaxels have different indices, answers with the nearest snaxel on the same edge on the side the snaxel comes from, and with the vertex it comes from exactly when there is none; the edge reported is the edge of the snaxel.", "quantifier": "for every snake and snaxel, any number of snaxels on the edge and any ranks", "why_tests_cant": "Tests use at most a few snaxels per edge in one storage order; the claim covers every number, rank and order of storage.", "anchors": ["SRCC/src/snake/triangulate.cpp:829-901"]}
{"id": "C93", "title": "Leaving a vertex reaches the first thing on the other edge", "statement": "FollowVertexConnection takes the other edge of the surface at the vertex and answers with the first snaxel on it seen from the vertex, or the vertex at its other end when the edge has no snaxel. It holds when the edge carries at most one snaxel. With two snaxels of different ranks it is false: the loops that should pick the nearest one store the first one again, so the same snaxel is given from both ends.", "quantifier": "for every surface whose edges form closed loops, every vertex, every pair of its edges and every snake", "why_tests_cant": "Needs edges with several snaxels, which occur only in the middle of an evolution; the existing tests check only that the run finishes.", "anchors": ["SRCC/src/snake/triangulate.cpp:903-974"]}
{"id": "C94", "title": "The parts of a surface inside the snake are found, each once", "statement": "BuildTriSurfGridSnakeIntersect, for a snake that crosses every edge of the surfaces concerned at most once, produces parts numbered from 1; each belongs to a surface between two different cells of a parent, is a closed outline without repetition that alternates correctly between snaxels and the vertices inside the snake, and has the cells of the surface in the order matching its direction; parts of one surface share no corner, and every edge of the snake in such a surface is on a part. The search ends on every mesh and snake, well formed or not.", "quantifier": "for every mesh, parent tree and snake; surfaces with any number of edges and parts", "why_tests_cant": "The number of parts, their sizes and the order in which edges are met are unbounded, and a wrong walk shows only as a wrong volume.", "anchors": ["SRCC/src/snake/triangulate.cpp:770-827", "SRCC/src/snake/triangulate.cpp:976-1098"]}
{"id": "C95", "title": "After each change of the snake its triangles are those of its present surfaces", "statement": "When MaintainTriangulateSnake is called after a change of the snake in which every changed surface is marked as modified, and the snake is well formed (unique indices, modified surfaces closed polygons, a cell and a volume for every surface, the parts of C94 exist), it succeeds; afterwards the triangles and added points of every surface of the snake are those of its present outline, with the cell and sign of that surface; no triangle or added point of a surface that is gone remains; the triangles and points of the mesh are untouched; the mixed surfaces are the ones found for this snake, each with its own triangles; and the active triangles are those of the mesh surfaces inside the snake. This holds after every history of such changes. A change that marks no surface, such as SwitchIndex on a vertex, leaves triangles of the old outline behind.", "quantifier": "for every history of snakes of any size over any mesh, and every set of surfaces added, changed or removed at each step", "why_tests_cant": "The triangulation is updated in place, and an error left by one update shows only after later ones; the histories and the sets of marked surfaces are unbounded.", "anchors": ["SRCC/src/snake/triangulate.cpp:147-184", "SRCC/src/snake/triangulate.cpp:1129-1185", "SRCC/src/snake/triangulate.cpp:1274-1340", "SRCC/src/grid/mesh.cpp:2012-2051", "SRCC/incl/arraystructures.hpp:284-303"]}
{"id": "C96", "title": "Growing a snake around interior vertices gives closed surfaces that enclose exactly those vertices", "statement": "SpawnAtVertex at an interior vertex of a consistent three-dimensional mesh succeeds. It leaves the present snake as it is and adds one cell enclosed by a surface without gaps or branches: a snaxel at the vertex on each edge that meets it, an edge on each surface and a surface in each cell around it, joined as these are, with numbers larger than all present ones. The vertex is then inside; every other vertex keeps its status provided the vertex was not inside before. After any sequence of growths around distinct interior vertices, starting from an empty snake, connectivity is mutual, the arrays of the snake belong together, there is one cell per vertex, one snaxel per vertex and edge, and the vertices inside are exactly those grown around. A vertex of the border of the mesh makes the code read a cell that does not exist, and a second growth around the same vertex leaves it as the only one inside.", "quantifier": "for every mesh, every snake on it and every sequence of interior vertices", "why_tests_cant": "The number of edges, surfaces and cells around a vertex and the number of growths are unbounded, and a wrong number or link shows only in later operations on the snake.", "anchors": ["SRCC/src/snake/snakeengine.cpp:23-204", "SRCC/src/snake/snake.cpp:395-442", "SRCC/src/snake/snake.cpp:486-612"]}
{"id": "C97", "title": "Snaxels that arrive at a vertex make the snake grow around it once, those at the border stop", "statement": "SpawnArrivedSnaxels succeeds for every list of impacts on snaxels of the snake. A vertex inside the mesh that is reached by snaxels going back, or by snaxels going forward and not by any going back, is grown around exactly once, with snaxels that point to it in the first case and away from it in the second; a snaxel that has arrived at the border of the mesh is frozen and every other snaxel stays as it is; the connectivity of the result is mutual and closed if that of the snake was. The vertices inside are the former ones, less those reached going back, plus those reached going forward, provided some vertex stays inside and none of those reached going forward was inside. When every vertex inside is reached going back, as when a snake shrinks back onto the vertex it grew from, the code marks every vertex of the mesh as inside.", "quantifier": "for every mesh, every snake on it and every list of impacts", "why_tests_cant": "The result depends on which snaxels arrive in the same step, on the vertices they share and on what is inside at that time; these combinations are unbounded.", "anchors": ["SRCC/src/snake/snakeengine.cpp:278-405", "SRCC/src/snake/snake.cpp:486-575", "SRCC/src/snake/snake.cpp:2329-2343"]}
{"id": "C98", "title": "The starting snake encloses exactly the vertices at the front and next to the outside", "statement": "FindSpawnVerts with outerBorder 0 or 1 on a three-dimensional mesh of cells succeeds and lists, in increasing order and once each, exactly the vertices that are not a corner of an outer surface and are either a corner of a surface between two cells of which in one parent exactly one has target 1 (0 for outerBorder 1), or a corner of a cell at the outside for which some parent has target 1 (a target other than 0 for outerBorder 1); it returns the latter ones, and lists each of these cells at the outside and otherwise only cells at the bound. The first phase of SpawnRSVS, from SetBorders to setting the velocities, succeeds from an empty snake: the result is one closed surface with one cell around each of these vertices, with one snaxel at the vertex on each of its edges, velocity 1, not frozen, and the vertices inside are exactly these. Any other value of outerBorder is refused.", "quantifier": "for every consistent three-dimensional mesh with interior vertices of any degree, every family of parents and every target", "why_tests_cant": "The choice combines border flags, parent connections and targets of every cell; the number of cells, parents and vertices is unbounded and a vertex missed or chosen wrongly gives a snake that still looks consistent.", "anchors": ["SRCC/src/rsvs/RSVSalgorithm.cpp:13-84", "SRCC/src/rsvs/RSVSalgorithm.cpp:124-159", "SRCC/src/grid/mesh.cpp:3984-4072", "SRCC/src/grid/mesh.cpp:1260-1337", "SRCC/src/snake/snakeengine.cpp:23-204"]}
{"id": "C99", "title": "Removing the snake in given cells takes whole parts away and leaves a closed snake", "statement": "RemoveSnakeInVolu, for a closed three-dimensional snake whose arrays belong together and whose surfaces each lie on one part (set of snaxels joined by edges), succeeds. Exactly the parts with a surface in one of the given cells go when outerBorder is 1, exactly the others when it is 0. Snaxels, snaxedges and snaxsurfs of the other parts stay, with their connections, and are turned round for outerBorder 1 only. The result is again consistent and closed, its arrays belong together, it has one volume for each part that stays and each surface separates the volume of its part from the outside; the flags of inside vertices are set for the origin of each snaxel and only for vertices enclosed by the snake.", "quantifier": "for every closed snake with any number of parts, snaxels and surfaces, every list of cells and both values of outerBorder", "why_tests_cant": "Parts, their sizes and how they share cells are unbounded; an edge or surface left behind, or a part split, shows only in later steps.", "anchors": ["SRCC/src/rsvs/RSVSalgorithm.cpp:194-296", "SRCC/src/grid/mesh.cpp:4633-4735", "SRCC/incl/snakstruct_incl.cpp:153-164"]}
{"id": "C100", "title": "Merging snaxels in contact takes one of each pair and moves its edges to the other", "statement": "MergeAllContactVertices, for a consistent snake whose edges have two different ends, given the contacts that SnaxImpactDetection reports when no snaxel touches two others, succeeds. Of each pair exactly one is taken out: the one whose contact is listed first. In every edge its number becomes that of the other, which stops (v = 0) and keeps all its other data. All other snaxels, vertices, edge ends, surfaces, volumes, snaxedges and snaxsurfs stay, the arrays still belong together and the mesh of the snake is consistent. With at most two snaxels on an edge the contacts reported are always of this kind.", "quantifier": "for every consistent snake of any size and every list of contacts in which no snaxel touches two others", "why_tests_cant": "The number of contacts and their order in the list are unbounded, and an edge that keeps the number of a removed snaxel shows only when it is next used.", "anchors": ["SRCC/src/snake/snakeengine.cpp:220-276", "SRCC/src/grid/mesh.cpp:2024-2053"]}
{"id": "C101", "title": "The step limits of edges are positive, at most 1, and bound motion by the shortest edge of the parent cell", "statement": "SetEdgeStepLimits succeeds for every consistent mesh with edges of positive length and gives every edge a limit in (0,1]: the mean, over the parent cells the edge touches, of the length of the shortest edge of the parent cell, divided by the length of the edge; 1 for an edge on no parent cell. UpdateDistance with these limits moves no snaxel further than maxDstep times the length of its edge, and on an edge inside one parent cell no further than maxDstep times the shortest edge of that parent cell. Edges on the border of two parent cells have another limit in space than those inside (contrary to the comment of the function).", "quantifier": "for every consistent mesh of any size, any number of parent meshes, all edge lengths, velocities and time steps", "why_tests_cant": "The limit of each edge depends on all edges of all cells of its parents, and motion on all velocities and time steps.", "anchors": ["SRCC/src/snake/snake.cpp:895-962", "SRCC/src/snake/snake.cpp:828-893"]}
{"id": "C102", "title": "The spawn step takes each new snaxel the same distance away from its vertex", "statement": "TakeSpawnStep, with 0 < stepLength < 0.5 and new snaxels at an end of their edge, moves each new snaxel away from its vertex by stepLength times the shortest edge at that vertex, so all snaxels spawned from one vertex are at the same distance from it, short of the middle of their edges; snaxels with index up to minIndex and all data but d stay as they are. For an edge with two new snaxels from its two ends this fails: both are put back.", "quantifier": "for every snake of any size on a consistent mesh, all edge lengths and all steps below 1/2", "why_tests_cant": "The step depends on all edges at the vertex and on which snaxels share an edge; the number of snaxels is unbounded.", "anchors": ["SRCC/src/snake/snake.cpp:2089-2101", "SRCC/src/snake/snake.cpp:2128-2192"]}
{"id": "C103", "title": "A tetrahedral mesh read back from tetgen is consistent and has exactly tetgen's connections", "statement": "TET2MESH, for every output of tetgen whose tables are complete and in range, numbered from 0 or 1, gives a mesh with one vertex, edge, surface and volume for each point, edge, face and tetrahedron, numbered from 1, in which each edge has its two points in tetgen's order, each surface its three edges, each volume its four faces, every reference is returned, and the exterior (0) is a side of exactly the faces that occur once in the tetrahedra. The coordinates are those of the points. Without the table of faces it throws.", "quantifier": "for every number of points, edges, faces and tetrahedra, all tables, both ways of numbering", "why_tests_cant": "The tables are of any size and any content; a shift by one between the two ways of numbering shows only for one of them.", "anchors": ["SRCC/src/interfaces/tetgenrsvs.cpp:1043-1158"]}
{"id": "C104", "title": "Two meshes are handed to tetgen whole: all points, markers and facets, without a write outside an array", "statement": "Mesh2Tetgenio, for two consistent meshes whose surfaces are listed as closed polygons, writes every element of the arrays and nothing outside: the coordinates of the geometry, then of the domain; point markers 1 and -1; point metrics 0 and -1; for each surface a facet with its corners in order as positions of points, those of the domain after those of the geometry; facet markers 1 and 2, which are the two facet constraints.", "quantifier": "for all consistent meshes of any size with polygons of three edges or more", "why_tests_cant": "Offsets must be right for every size of the first mesh and every order of the indices of the second.", "anchors": ["SRCC/src/interfaces/tetgenrsvs.cpp:25-117", "SRCC/src/interfaces/tetgenrsvs.cpp:1358-1393", "SRCC/src/interfaces/tetgenrsvs.cpp:1496-1534"]}
{"id": "C105", "title": "Metrics are written for exactly the points and facets asked for", "statement": "SpecifyTetPointMetric writes the given metrics to exactly the points of the range and SpecifyTetFacetMetric the marker to exactly the facets of the range; nothing else changes and a range outside the arrays throws. The same metrics go to every point of the range. So one length for each vertex, as RSVSGRIDS and RSVS2CFD pass, is not honoured: every point gets the length of the first vertex; and RSVSGRIDS with a boundary mesh that has points always throws.", "quantifier": "for all arrays, ranges, numbers of metrics and values", "why_tests_cant": "The ranges and the number of metrics for each point are unbounded; calls with one value look right.", "anchors": ["SRCC/src/interfaces/tetgenrsvs.cpp:1536-1560", "SRCC/src/interfaces/tetgenrsvs.cpp:1587-1606", "SRCC/src/interfaces/tetgenrsvs.cpp:249-288"]}
{"id": "C106", "title": "A face is on the boundary exactly when all its corners are", "statement": "BoundaryFacesFromPoints gives one flag for each surface, in order, which is set exactly when every corner of the surface is among the boundary points. An index of a point that is not in the mesh is undefined behaviour.", "quantifier": "for all consistent meshes with polygonal surfaces and all lists of points", "why_tests_cant": "Any subset of the points of any mesh can be given.", "anchors": ["SRCC/src/interfaces/tetgenrsvs.cpp:1320-1355"]}
{"id": "C107", "title": "An SU2 file has the numbers it announces and every marked face once", "statement": "SU2 writes the dimension, the number of points and all points, the number of tetrahedra and all tetrahedra with corners numbered from 0, then the number of boundaries and, for each marker other than 0 that occurs, once, the number of its faces and exactly its faces in order, with corners numbered from 0. Faces with marker 0 are left out.", "quantifier": "for all outputs of tetgen, any markers in any order", "why_tests_cant": "The number of markers and their order are unbounded; a wrong count makes a file that another program rejects.", "anchors": ["SRCC/src/interfaces/tetgenrsvs.cpp:413-512"]}
{"id": "C108", "title": "Splitting a mesh into triangles keeps it consistent and replaces exactly the surfaces that have a centre", "statement": "MeshTriangulation, for every consistent mesh whose surfaces are listed as closed polygons and every list of triangles that belong to its surfaces, gives a consistent mesh whose surfaces are again closed polygons. Each surface with triangles that meet at a centre is replaced by one triangle for each of its edges, made of that edge and two edges to one new vertex at the centre, with the same cells on its sides; the first triangle keeps the index of the surface and all other indices are new. All other surfaces, all vertices, edges with their ends and volumes stay, and nothing else is added. With the triangles of TriangulateMesh or TriangulateSnake for all surfaces, every surface of the result has three edges.", "quantifier": "for all consistent meshes of any size, polygons with any number of edges in either direction, and triangles in any order", "why_tests_cant": "The references must be right for every polygon, every direction of its edges and every number of surfaces split before.", "anchors": ["SRCC/src/snake/triangulate.cpp:606-768", "SRCC/src/snake/triangulate.cpp:186-338"]}
{"id": "C109", "title": "Orienting the faces of a mesh gives sides that agree around every cell", "statement": "OrientFaces, on every consistent three-dimensional mesh whose surfaces are closed polygons between two different cells, ends, exchanges the two sides of some surfaces and changes nothing else. If the sides can be chosen so that all surfaces which share an edge and a cell are oriented alike, the result is such a choice. The normal of each surface points from its first side to its second.", "quantifier": "for all consistent meshes with any number of surfaces, edges shared by any number of surfaces, any initial sides and any directions of the polygons, and for all answers of the geometric test", "why_tests_cant": "Agreement has to hold for every pair of adjacent surfaces, whatever the order in which the flood meets them and wherever the cells lie.", "anchors": ["SRCC/src/grid/mesh.cpp:4948-5156", "SRCC/src/grid/mesh.cpp:4909-4943", "SRCC/src/grid/mesh.cpp:3862-3868", "SRCC/src/snake/snake.cpp:2528-2608"]}
{"id": "C110", "title": "Ordering the surfaces of a mesh leaves each one a single closed polygon", "statement": "mesh::OrderEdges, on every consistent mesh whose surfaces are sets of simple closed polygons, ends with a consistent mesh in which every surface is one closed polygon. A surface of several polygons becomes one surface per polygon, each with the sides of the original. Edges refer to the part in the place where they referred to the whole, a volume lists each part once, and surfaces already in order, vertices and ends of edges are unchanged. The list returned pairs every new surface with the surface it comes from.", "quantifier": "for all consistent meshes, any number of surfaces and of polygons per surface, any capacity of the vector of surfaces, and any order inside the ranges of the hash tables", "why_tests_cant": "The outcome depends on the number of polygons, on their order and on the spare capacity of a vector at the moment of each split, which a test neither sees nor controls.", "anchors": ["SRCC/src/grid/mesh.cpp:3917-3960", "SRCC/src/grid/mesh.cpp:3663-3717", "SRCC/src/grid/mesh.cpp:3719-3806", "SRCC/src/grid/mesh.cpp:2219-2260"]}
{"id": "C111", "title": "Splitting the faces of a mesh in place gives a consistent mesh of triangles or of flat border faces", "statement": "TriangulateAllFaces turns every consistent mesh of polygons into a consistent mesh of triangles, each in order. FlattenBoundaryFaces splits exactly the border faces of four edges or more that are flat in no coordinate, so that afterwards every border face is a triangle or flat, and changes nothing when there are none. A split face becomes a fan around one new vertex between the same cells; every other object keeps its references, the order of the two cells beside a surface included, and the border marks are right afterwards if they were before.", "quantifier": "for all consistent meshes of polygons of any size, all outcomes of the comparison of coordinates, all capacities and all orders inside the ranges of the hash tables", "why_tests_cant": "The result goes through four algorithms (triangulation, splitting, sorting, ordering) whose interplay depends on numbering, list order and which faces are chosen.", "anchors": ["SRCC/src/grid/meshprocessing.cpp:15-80", "SRCC/src/grid/meshprocessing.cpp:82-113", "SRCC/src/snake/triangulate.cpp:606-768", "SRCC/src/grid/mesh.cpp:2003-2009", "SRCC/src/grid/mesh.cpp:3028-3085"]}
{"id": "C112", "title": "The domain given to tetgen is a consistent mesh of nested boxes from the inner to the outer bounds", "statement": "BuildCutCellDomain with n >= 1 subdomains returns a consistent mesh of n closed hexahedra, 8 n vertices, 12 n edges, 6 n faces and n cells, and announces eight vertices for each; the corners of the first are those of the inner bounds widened by 0.1, those of subdomain k are at k/(n-1) of the way from the inner to the outer bounds, and each box lies in the next when the inner bounds lie in the outer ones. With n = 0 the mesh is empty and the list is cleared. The indices grow in proportion to n.", "quantifier": "for all bounds with lower < upper and any number of subdomains", "why_tests_cant": "Each step rescales and renumbers the result of the previous one, so that positions and indices depend on the whole history of steps.", "anchors": ["SRCC/src/grid/meshprocessing.cpp:432-436", "SRCC/src/grid/meshprocessing.cpp:438-472", "SRCC/src/grid/meshprocessing.cpp:512-555", "SRCC/src/grid/mesh.cpp:3223-3255", "SRCC/src/grid/mesh.cpp:5168-5219"]}
{"id": "C113", "title": "Every body of a snake is emptied from a point that lies inside it", "statement": "FindHolesInSnake returns vertices of the mesh that are inside the snake and that no snaxel is near, each at most once and at most one for each body; when no vertex inside is near a snaxel, every body with a snaxel that comes from inside gets such a vertex as its hole, in the order of the bodies. When the vertices it comes from are all near a snaxel, the search goes on along the edges of vertices inside, ends, and finds a vertex in no doubt whenever one is joined to them. GroupCloseSnaxels puts in doubt exactly the ends that a snaxel is nearer to than the tolerance, and the coordinates given to tetgen are those of the vertices chosen, three for each.", "quantifier": "for all meshes, snakes, tolerances, sets of vertices inside and in doubt, and orders of the bodies", "why_tests_cant": "The search shares the marks of what it has seen between the bodies and continues through any number of vertices in doubt, so that the answer for one body depends on the whole mesh and on the bodies before it.", "anchors": ["SRCC/src/grid/meshprocessing.cpp:115-180", "SRCC/src/grid/meshprocessing.cpp:238-249", "SRCC/src/grid/meshprocessing.cpp:256-282", "SRCC/src/grid/meshprocessing.cpp:367-430", "SRCC/incl/arraystructures_incl.cpp:60-75"]}
{"id": "C114", "title": "Collapsed edges and loose snaxels are all detected and the merges planned do not conflict", "statement": "SnaxEdgeConnecDetection appends, for every edge of the snake whose two snaxels are on the same edge of the mesh, exactly one removal of that edge, and the merge of its ends if they differ, and nothing else; what the list held before is kept. SnaxNoConnecDetection appends exactly the vertices of the snake that have no edge, once each. After the loop of CleanupSnakeConnec over these records any two merges are the same or have no snaxel in common, each merges the two ends of an edge detected, and the number of records is unchanged. An edge is still marked for removal after the loop only together with the merge of its own two ends, or when they are one snaxel.", "quantifier": "for all snakes in step whose edges have no or two ends, all lists of records before the calls, and any number of snaxels on one edge of the mesh", "why_tests_cant": "Any number of collapsed edges may share snaxels, and each merge rewrites the records after it, so that the outcome depends on the order and the overlaps of all of them.", "anchors": ["SRCC/src/snake/snakeengine.cpp:415-471", "SRCC/src/snake/snakeengine.cpp:473-493", "SRCC/src/snake/snakeengine.cpp:591-622", "SRCC/incl/mesh.hpp:513-521"]}
{"id": "C115", "title": "Collapsed edges and edges with twice the same end are all removed from the snake and nothing else is", "statement": "The loop of CleanupSnakeConnec over the edges of the snake takes every reference from and to each edge whose first two ends are the same vertex, and appends exactly one record of the removal for each; what the list held before is kept. Afterwards no edge has twice the same end, every other edge is exactly as before, vertices and surfaces refer to the same other edges, volumes are unchanged and the connectivity is consistent. The loop before it takes every reference from and to each edge recorded as collapsed, changes no other reference, and keeps the connectivity consistent and the records as they are.", "quantifier": "for all consistent meshes of a snake and all lists of records (those of the first loop name edges of the mesh), whatever the number and positions of such edges", "why_tests_cant": "The removals change the lists of the vertices and surfaces that later removals use, and any number of such edges may share vertices and surfaces.", "anchors": ["SRCC/src/snake/snakeengine.cpp:626-641", "SRCC/src/snake/snakeengine.cpp:644-659", "SRCC/src/grid/mesh.cpp mesh::RemoveIndex", "SRCC/src/snake/snakeengine.cpp:785-795"]}
{"id": "C116", "title": "The box around the points returned by tetgen is the tightest one", "statement": "tetgen::output::GetBoundBox returns, for each of the three coordinates, a lower bound and an upper bound that are each the coordinate of some point, and no point has a smaller or larger one. It reads nothing outside the list of points.", "quantifier": "for all outputs of tetgen with at least one point and a list of points of the declared length, whatever the number and order of points", "why_tests_cant": "The bounds depend on every point and on the order in which they are met; tests try a few lists.", "anchors": ["SRCC/src/interfaces/tetgenrsvs.cpp:683-703"]}
{"id": "C117", "title": "The lists of objects that a clean-up of a snake removes are complete, and volumes lose the faces without edges only", "statement": "CleanupSnakeConnec gathers into the list of each kind of object exactly the indices that records of that type remove, in increasing order and once each. It finds exactly the surfaces without edges, once each, and takes the references between them and volumes; afterwards every surface of a volume has an edge, all other references are as before, the connectivity is consistent, and the final list of surfaces holds these and those of the records.", "quantifier": "for all lists of records of any types and lengths, and all consistent meshes of a snake", "why_tests_cant": "Records of several types name overlapping indices in any order, and any number of surfaces may be bare.", "anchors": ["SRCC/src/snake/snakeengine.cpp:721-742", "SRCC/src/snake/snakeengine.cpp:754-780", "SRCC/src/snake/snakeengine.cpp:804-819", "SRCC/src/snake/snakeengine.cpp:836-845"]}
{"id": "C118", "title": "Bodies of a snake are merged exactly when chains of removed vertices join them", "statement": "ModifyMergVoluConnec gives two bodies of a snake the same index exactly when they are joined by a chain of bodies that meet pairwise at vertices of the list. Afterwards the faces around each vertex of the list belong to one body at most, the outside stays the outside, edges, vertices and the edges of faces are unchanged, every face of a body is listed by that body, and the records added remove exactly the bodies that were renamed; what the list of records held before is kept.", "quantifier": "for all consistent three-dimensional meshes of a snake with positive indices, all lists of its vertices with or without repeats, and all lists of records", "why_tests_cant": "Each merge changes the bodies that later vertices touch, and chains of meetings may be of any length and come in any order.", "anchors": ["SRCC/src/snake/snakeengine.cpp:1392-1441", "SRCC/src/grid/mesh.cpp mesh::SwitchIndex"]}
