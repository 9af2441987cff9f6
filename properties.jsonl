{"id": "C01", "title": "Time arithmetic is exact and stays in normal form", "statement": "For any program built from epochStart(), timestamps in normal form, differences, +, -, +=, -= and unary minus on TimeStamp/TimeDiff, every valid result reported by full_time() has 0 <= microseconds < 1000000 and seconds*1000000+microseconds is exactly the integer the same program computes on integers, unless a signed 64-bit addition overflows, which is the only undefined outcome.", "quantifier": "all finite operation sequences, all initial timestamps, all 64-bit field values", "why_tests_cant": "the carry logic is a single conditional step; tests sample a few carries while the claim ranges over all chains of operations and all field values", "anchors": ["src/wfmath/timestamp.cpp: regularize, TimeDiff::TimeDiff(long,long,bool), operator+=, operator-=, operator+, operator-", "src/wfmath/timestamp.h: TimeDiff::operator-, TimeDiff::full_time"]}
{"id": "C02", "title": "Time comparisons are a chronological total order", "statement": "On valid values in normal form <, <=, >, >=, == and != on TimeStamp and on TimeDiff agree with comparing the represented number of microseconds (so they are a total order), (a - b) + b == a, a + d - d == a, and addition is monotone; a result is valid exactly when all operands are.", "quantifier": "all pairs/triples of valid TimeStamps and TimeDiffs", "why_tests_cant": "order axioms quantify over all triples of values", "anchors": ["src/wfmath/timestamp.cpp: operator<, operator==, operator-", "src/wfmath/timestamp.h: operator>, operator<=, operator>=, operator!="]}
{"id": "C03", "title": "Millisecond construction and read-back agree", "statement": "TimeDiff(msec).milliseconds() == msec for every long msec that does not overflow.", "quantifier": "all long values", "why_tests_cant": "needs every residue modulo 1000 and both signs; the claim is false for most inputs, which sampled multiples of 1000 hide", "anchors": ["src/wfmath/timestamp.cpp: TimeDiff::TimeDiff(long), TimeDiff::milliseconds"]}
{"id": "C04", "title": "Integer to decimal string conversion is exact and in bounds", "statement": "For every value of unsigned long and of long (including the most negative), IntToString returns the canonical decimal numeral (no leading zeros, '-' only for negative values), reading the numeral back gives the same value, different values give different strings, and no byte outside the fixed local buffer is written.", "quantifier": "all 2^64 values of each type", "why_tests_cant": "2^64 inputs; buffer bounds depend on the maximal digit count", "anchors": ["src/wfmath/int_to_string.cpp: DoIntToString, SafeAbs, IntToString"]}
{"id": "C05", "title": "The generator never indexes outside its state", "statement": "For every sequence of seed(word), seed(non-empty array), load(any integers) and randInt() calls, no access outside the 624-word state or the seed array happens, every value returned is in [0,2^32), and every state word stays in [0,2^32).", "quantifier": "all finite call histories, all seeds, all loaded states including out of range indices", "why_tests_cant": "index arithmetic (including the wrapped unsigned offset period-state_size) must be right at every step of every history", "anchors": ["src/wfmath/randgen.cpp: MTRand::seed, MTRand::randInt, MTRand::load", "src/wfmath/MersenneTwister.h: MTRand"]}
{"id": "C06", "title": "Bounded random integers are in range and unbiased", "statement": "randInt(n) returns a value i with 0 <= i <= n; it consumes words until one is accepted, which happens within 19999 words whatever the state of the generator; each i in [0,n] is produced by exactly the same number of 32-bit words, and more than half of all words are accepted.", "quantifier": "all n in [0,2^32), all internal states", "why_tests_cant": "uniformity is a counting statement over 2^32 words for each of 2^32 bounds, and a rejection loop may run for ever in some state no test meets", "anchors": ["src/wfmath/MersenneTwister.h: MTRand::randInt(uint32)"]}
{"id": "C07", "title": "Saving and loading a generator preserves its future", "statement": "load(save(g)) into any generator gives a generator whose complete future output equals that of g.", "quantifier": "all reachable generator states, all later call sequences", "why_tests_cant": "state space of 2^19968; equality of infinite streams", "anchors": ["src/wfmath/randgen.cpp: MTRand::save, MTRand::load", "src/wfmath/stream.cpp: operator<<(MTRand), operator>>(MTRand)"]}
{"id": "C08", "title": "Output stream is the MT19937 recurrence", "statement": "The k-th word returned by randInt() after seeding is temper(x[624+k]) where x is the infinite sequence defined by x[k+624] = x[k+397] xor twist(upper(x[k]), lower(x[k+1])), with x[0..623] the seeded state; the in-place block refill is unobservable.", "quantifier": "all seeds, all k", "why_tests_cant": "the property compares an in-place batch update against an infinite recurrence at every index", "anchors": ["src/wfmath/randgen.cpp: MTRand::randInt"]}
{"id": "C09", "title": "Seeding determines the stream", "statement": "After seed(s) or seed(array) the whole future stream depends only on the seed, not on what the generator did before; seed(s) follows the documented linear recurrence and array seeding never leaves the all-zero state.", "quantifier": "all prior histories, all seeds, all non-empty seed arrays of any length", "why_tests_cant": "quantifies over all previous histories and all array lengths", "anchors": ["src/wfmath/randgen.cpp: MTRand::seed(uint32), MTRand::seed(const uint32[],uint32)"]}
{"id": "C10", "title": "Shuffle permutes and can reach every permutation exactly once", "statement": "Shuffle(v) returns, in every state of the generator, and leaves a permutation of v; distinct choice sequences of the random indices lead to distinct arrangements and every arrangement is reached by exactly one choice sequence.", "quantifier": "all vectors (any length and contents) and all random streams", "why_tests_cant": "bijection between choice sequences and the symmetric group for every length", "anchors": ["src/wfmath/shuffle.h: Shuffle"]}
{"id": "C11", "title": "Approximate equality is reflexive, symmetric and monotone in the tolerance", "statement": "For every finite double x, Equal(x,x,e) holds for e >= 0; Equal(x,y,e) == Equal(y,x,e) for all doubles including NaN and infinities; enlarging e never turns true into false.", "quantifier": "all pairs of IEEE binary64 values and all non-negative tolerances", "why_tests_cant": "2^128 pairs, with rounding, subnormals and exponent scaling", "anchors": ["src/wfmath/const.cpp: Equal(double,double,double), _ScaleEpsilon(double,double,double)"]}
{"id": "C12", "title": "Approximate equality is relative to the smaller operand", "statement": "In exact arithmetic Equal(x,y,e) implies |x-y| <= 2*e*min(|x|,|y|) whenever the smaller is nonzero, and |x-y| <= e*min(|x|,|y|) implies Equal(x,y,e): the tolerance is e scaled by the power of two just above the smaller operand.", "quantifier": "all reals x, y and tolerances e >= 0", "why_tests_cant": "quantitative bound over all magnitudes", "anchors": ["src/wfmath/const.cpp: _ScaleEpsilon", "src/wfmath/const.h: Equal"]}
{"id": "C13", "title": "FloatMax, FloatMin and FloatClamp select correctly", "statement": "For non-NaN doubles FloatMax/FloatMin return one of their arguments that bounds both; FloatClamp(v,lo,hi) with lo <= hi returns v when lo <= v <= hi, and otherwise the nearer bound, always within [lo,hi].", "quantifier": "all non-NaN binary64 values", "why_tests_cant": "order statement over all doubles including infinities and signed zeros", "anchors": ["src/wfmath/const.h: FloatMax, FloatMin, FloatClamp"]}
{"id": "C14", "title": "Invalid operands never yield equality and always yield invalid results", "statement": "isEqualTo is false whenever either operand is invalid, and every arithmetic operation on Vector, Point, RotMatrix, Quaternion, TimeStamp and TimeDiff with an invalid operand returns an invalid result while valid operands give valid results.", "quantifier": "all operands of every dimension and any scalar arithmetic (including NaN)", "why_tests_cant": "must hold for every operation chain and every coordinate value", "anchors": ["src/wfmath/vector_funcs.h: isEqualTo, operator+=", "src/wfmath/point_funcs.h: isEqualTo, operator+=, Midpoint, Barycenter", "src/wfmath/rotmatrix_funcs.h: Prod, isEqualTo", "src/wfmath/quaternion.cpp: operator*=, isEqualTo", "src/wfmath/axisbox_funcs.h: setCorners"]}
{"id": "C15", "title": "Vectors and points form an affine space", "statement": "In exact arithmetic Vector operations satisfy the vector space axioms (commutativity, associativity, zero, negation, scalar distributivity) and Points the affine laws p + (q - p) == q, (p + v) - p == v, (p + v) + w == p + (v + w), in every dimension.", "quantifier": "all vectors/points of every dimension, all scalars", "why_tests_cant": "algebraic laws over all values and all dimensions", "anchors": ["src/wfmath/vector_funcs.h: operator+=, operator-=, operator*=, operator/=", "src/wfmath/point_funcs.h: operator-, operator+=, operator-="]}
{"id": "C16", "title": "Dot is the inner product up to its documented clamp", "statement": "Dot(a,b) == Dot(b,a); it is either the exact sum of products or 0, and it differs from the exact inner product by at most 2*epsilon*min(max|a_i|,max|b_i|); with the clamp disabled it is bilinear and satisfies Cauchy-Schwarz.", "quantifier": "all vectors of every dimension, all epsilon >= 0", "why_tests_cant": "bounds over all values and dimensions", "anchors": ["src/wfmath/vector_funcs.h: Dot, sqrMag"]}
{"id": "C17", "title": "Dot of a vector with itself is its squared magnitude", "statement": "Dot(v,v) == v.sqrMag() for every vector v.", "quantifier": "all vectors", "why_tests_cant": "fails only for small vectors, which tests with unit-scale data miss", "anchors": ["src/wfmath/vector_funcs.h: Dot, sqrMag"]}
{"id": "C18", "title": "The 3D cross product is antisymmetric, bilinear and orthogonal to its factors", "statement": "Cross(a,b) == -Cross(b,a) at every epsilon; each component differs from the exact one by at most 2*epsilon*min(max|a_i|,max|b_i|); with epsilon 0 it is bilinear, orthogonal to both factors and |Cross(a,b)|^2 + Dot(a,b)^2 == |a|^2|b|^2.", "quantifier": "all pairs of 3D vectors, all epsilon >= 0", "why_tests_cant": "identities over all reals", "anchors": ["src/wfmath/vector.cpp: Cross(Vector<3>,Vector<3>)"]}
{"id": "C19", "title": "The 2D cross product is antisymmetric", "statement": "Cross(a,b) == -Cross(b,a) for 2D vectors a, b, and its absolute value is the area of the parallelogram up to the clamp.", "quantifier": "all pairs of 2D vectors", "why_tests_cant": "depends on the orientation of the pair; a test with one orientation passes", "anchors": ["src/wfmath/vector.cpp: Cross(Vector<2>,Vector<2>)"]}
{"id": "C20", "title": "sloppyMag brackets the true magnitude", "statement": "mag() <= sloppyMag() <= sloppyMagMax()*mag() in dimensions 1, 2 and 3, and sloppyNorm(n) produces a vector whose length is between n/sloppyMagMax() and n.", "quantifier": "all vectors in dimensions 1, 2, 3", "why_tests_cant": "inequality over all component ratios, with a tight maximum at an irrational ratio", "anchors": ["src/wfmath/vector.cpp: Vector<2>::sloppyMag, Vector<3>::sloppyMag", "src/wfmath/vector.h: sloppyMagMax", "src/wfmath/vector_funcs.h: sloppyNorm"]}
{"id": "C21", "title": "Normalising and reflecting vectors", "statement": "normalize(n) of a nonzero vector has magnitude n and the same direction; mirror(i), mirror(v) and mirror() are involutions that preserve magnitude, mirror(v) negates the component along v and fixes the orthogonal complement.", "quantifier": "all nonzero vectors of every dimension", "why_tests_cant": "all values, all dimensions", "anchors": ["src/wfmath/vector.h: normalize, mirror"]}
{"id": "C22", "title": "Polar and spherical coordinates round trip", "statement": "v.polar(r,theta) followed by asPolar recovers r and theta (up to 2*pi), and converting a vector to polar/spherical and back yields the same vector.", "quantifier": "all vectors, all angles", "why_tests_cant": "all angles and radii; symmetric test points such as x == y hide the failure", "anchors": ["src/wfmath/basis.h: _CartToPolar, _PolarToCart, _CartToSpherical, _SphericalToCart", "src/wfmath/vector.cpp: polar, asPolar, spherical, asSpherical"]}
{"id": "C23", "title": "Every rotation matrix the API can build is orthogonal", "statement": "Starting from identity, axis-plane rotations, mirrors, rotations in the plane of two vectors and between two vectors, and closing under Prod, ProdInv, InvProd, InvProdInv, inverse and normalize, every valid RotMatrix satisfies M*M^T == I in exact arithmetic.", "quantifier": "all dimensions, all finite expression trees over the constructors, all angles and vectors", "why_tests_cant": "infinite set of expression trees", "anchors": ["src/wfmath/rotmatrix_funcs.h: Prod, ProdInv, InvProd, InvProdInv, inverse, identity, rotation, mirror, normalize"]}
{"id": "C24", "title": "The parity flag is the sign of the determinant", "statement": "For every matrix built by the API (2D and 3D) determinant()/parity() agree with the actual determinant of the elements, including products, inverses, mirrors and conversion from quaternions with not_flip == false.", "quantifier": "all API expression trees in 2D and 3D", "why_tests_cant": "flag bookkeeping must be right along every construction path", "anchors": ["src/wfmath/rotmatrix.h: determinant, parity, mirror", "src/wfmath/rotmatrix_funcs.h: Prod, mirror", "src/wfmath/rotmatrix.cpp: fromQuaternion"]}
{"id": "C25", "title": "Rotation matrices form a group acting on vectors", "statement": "Products are associative, identity is neutral, Prod(m, m.inverse()) is the identity, ProdInv/InvProd/InvProdInv equal the products with inverses, and v.rotate(m1).rotate(m2) == v.rotate(m1*m2); rotation preserves dot products and lengths.", "quantifier": "all dimensions, all orthogonal matrices, all vectors", "why_tests_cant": "algebra over all values and dimensions, including the hidden re-normalisation inside products", "anchors": ["src/wfmath/rotmatrix_funcs.h: Prod, ProdInv, InvProd, InvProdInv, inverse", "src/wfmath/vector_funcs.h: Vector::rotate(RotMatrix)"]}
{"id": "C26", "title": "Round-off age is bounded by renormalisation", "statement": "Whatever sequence of products is performed, a valid product never reports age >= 20: at 20 it is renormalised to age 1; normalize leaves an orthogonal matrix unchanged in exact arithmetic.", "quantifier": "all expression trees of matrix and quaternion operations", "why_tests_cant": "history property of a counter", "anchors": ["src/wfmath/rotmatrix.h: checkNormalization", "src/wfmath/rotmatrix_funcs.h: Prod, inverse, normalize", "src/wfmath/quaternion.cpp: operator*=, operator/=", "src/wfmath/quaternion.h: checkNormalization"]}
{"id": "C27", "title": "Normalisation converges quadratically", "statement": "RotMatrix::normalize replaces A by A' with A'A'^T - I == (S-I)^2 S^-1 / 4 where S = A A^T, so an orthogonality defect d shrinks to order d^2; Quaternion::normalize maps a squared norm n to 4n/(n+1)^2, at distance ((n-1)/(n+1))^2 from 1.", "quantifier": "all invertible matrices of every dimension, all quaternions", "why_tests_cant": "error bound over all inputs", "anchors": ["src/wfmath/rotmatrix_funcs.h: normalize", "src/wfmath/quaternion.cpp: Quaternion::normalize"]}
{"id": "C28", "title": "Matrix inversion is exact whenever it reports success", "statement": "When the elimination used by normalize() and setVals() reports success the output is the two-sided inverse of the input; it reports failure only when a pivot column is numerically zero.", "quantifier": "all square matrices of every size", "why_tests_cant": "elimination with row additions over all matrices and sizes", "anchors": ["src/wfmath/rotmatrix.cpp: _MatrixInverseImpl"]}
{"id": "C29", "title": "setVals accepts only near-orthogonal input and yields an orthogonal matrix", "statement": "setVals returns false and leaves the matrix unchanged unless the input is orthogonal within the given precision; when it returns true the stored matrix is orthogonal within epsilon, valid, age 1, with the parity flag equal to the sign of the determinant of the stored elements; an exactly orthogonal input is stored unchanged. It always returns, and all of this holds in doubles too.", "quantifier": "all input arrays, all precisions, every dimension (the parity flag: dimensions 2 and 3, those the library is built for)", "why_tests_cant": "iteration to convergence over all inputs", "anchors": ["src/wfmath/rotmatrix.cpp: _MatrixSetValsImpl, _MatrixDeterminantImpl", "src/wfmath/rotmatrix_funcs.h: setVals, _setVals"]}
{"id": "C30", "title": "Rotations between given vectors do what they say", "statement": "rotation(i,j,theta) acts like Vector::rotate(i,j,theta); rotation(v1,v2,theta) rotates by theta in the plane of v1,v2 and fixes its complement; rotation(from,to) is orthogonal and maps from onto the direction of to unless antiparallel (throws); mirror(v) reflects along v.", "quantifier": "all dimensions, vectors and angles (non-degenerate)", "why_tests_cant": "all directions and angles", "anchors": ["src/wfmath/rotmatrix_funcs.h: rotation, mirror", "src/wfmath/vector_funcs.h: Vector::rotate", "src/wfmath/vector.cpp: Vector<3>::rotate"]}
{"id": "C31", "title": "Quaternions stay unit and form a group", "statement": "Every quaternion the API builds has squared norm 1 in exact arithmetic and products, quotients and inverses keep it so; q * q.inverse() is the identity, p / q == p * q.inverse(), multiplication is associative.", "quantifier": "all finite expression trees over quaternion constructors and operations", "why_tests_cant": "infinite set of expression trees, with hidden renormalisation", "anchors": ["src/wfmath/quaternion.cpp: Quaternion::Quaternion, operator*=, operator/=, inverse, rotation, normalize"]}
{"id": "C32", "title": "Quaternion rotation composes in the documented order", "statement": "v.rotate(q1).rotate(q2) == v.rotate(q1 * q2); rotation by a unit quaternion preserves lengths and dot products; q and -q rotate identically; v.rotate(q).rotate(q.inverse()) == v; rotation(axis, angle) fixes the axis and turns the orthogonal plane by angle.", "quantifier": "all unit quaternions, all 3D vectors", "why_tests_cant": "all reals", "anchors": ["src/wfmath/vector.cpp: Vector<3>::rotate(Quaternion)", "src/wfmath/quaternion.cpp: operator*=, rotation"]}
{"id": "C33", "title": "Quaternion and matrix describe the same rotation", "statement": "RotMatrix(q) is orthogonal with determinant 1 and v.rotate(q) == ProdInv(v, RotMatrix(q)); converting to a quaternion and back gives the original matrix; fromRotMatrix followed by fromQuaternion with the returned flag recovers any matrix including mirrors, with the right parity.", "quantifier": "all unit quaternions, all orthogonal 3x3 matrices", "why_tests_cant": "the conversion has four branches selected by trace and largest diagonal element; tests reach one", "anchors": ["src/wfmath/rotmatrix.cpp: fromQuaternion", "src/wfmath/quaternion.cpp: fromRotMatrix"]}
{"id": "C34", "title": "Rotating by a matrix and by the corresponding quaternion agree", "statement": "Rotating a matrix by a quaternion satisfies v.rotate(m.rotate(q)) == v.rotate(m).rotate(q), and rotating a quaternion by a matrix satisfies v.rotate(q.rotate(m)) == v.rotate(q).rotate(m).", "quantifier": "all unit quaternions, orthogonal matrices, vectors", "why_tests_cant": "direction conventions only differ for non-symmetric rotations", "anchors": ["src/wfmath/rotmatrix.cpp: RotMatrix<3>::rotate(Quaternion)", "src/wfmath/quaternion.cpp: Quaternion::rotate(RotMatrix)"]}
{"id": "C35", "title": "Quaternion rotation(from,to) aligns the vectors", "statement": "After q.rotation(from,to) for non-antiparallel vectors of non-negligible length, q is unit and from.rotate(q) is the positive multiple of to with the length of from; with a fallback axis orthogonal to antiparallel vectors the result is the half turn; short vectors give an invalid quaternion.", "quantifier": "all pairs of 3D vectors", "why_tests_cant": "all directions", "anchors": ["src/wfmath/quaternion.cpp: rotation(Vector<3>,Vector<3>), rotation(Vector<3>,Vector<3>,Vector<3>)"]}
{"id": "C36", "title": "Conversion between parent and local coordinates is inverse", "statement": "x.toParentCoords(o,r).toLocalCoords(o,r) == x and x.toLocalCoords(o,r).toParentCoords(o,r) == x for Point, Ball, Segment, Polygon and RotBox with an orthogonal matrix or a unit quaternion, for AxisBox and pure translations, and with a box as the frame; the corners of the converted shape are the converted corners. In doubles, with a matrix or quaternion close to a rotation, converting a point, turning it about another and going there and back are exact to within a few rounding errors of the coordinates involved, plus what the matrix or quaternion is off.", "quantifier": "all shapes, origins, rotations, every dimension", "why_tests_cant": "all orientations; symmetric or commuting orientations hide a wrong order", "anchors": ["src/wfmath/point.h: toParentCoords, toLocalCoords", "src/wfmath/rotbox.h: toParentCoords, toLocalCoords", "src/wfmath/segment.h, src/wfmath/ball.h, src/wfmath/axisbox.h, src/wfmath/polygon.h, src/wfmath/polygon.cpp"]}
{"id": "C37", "title": "Barycenter and Midpoint are affine combinations", "statement": "Barycenter of n points is the coordinatewise mean, the weighted form is the weighted mean using the shorter of the two lists, empty input or weights summing to (nearly) zero give an invalid point; Midpoint(p,q,d) is (1-d)p + dq; both commute with translation and rotation and stay in the bounding box for non-negative weights.", "quantifier": "all finite lists of points and weights, any dimension", "why_tests_cant": "lists of every length", "anchors": ["src/wfmath/point_funcs.h: Barycenter, Midpoint"]}
{"id": "C38", "title": "Distance is symmetric and zero only for nearly equal points", "statement": "SquaredDistance is symmetric, non-negative, translation invariant when the clamp does not act, and differs from the exact squared distance by at most 2*epsilon*min(max|p_i|,max|q_i|), or epsilon if one point is the origin; Distance satisfies the triangle inequality with the clamp disabled; Distance(p,q) == 0 implies p == q.", "quantifier": "all pairs and triples of points, any dimension", "why_tests_cant": "all values; the last clause fails only at distances near sqrt(epsilon)", "anchors": ["src/wfmath/point_funcs.h: SquaredDistance", "src/wfmath/point.h: Distance, SloppyDistance"]}
{"id": "C39", "title": "Axis box predicates are exact set predicates", "statement": "For valid boxes with ordered corners, Intersect(box,point,false)/Contains mean set membership in the closed box and Intersect(box,box,false) means the closed boxes share a point; proper versions mean the open interiors (for two boxes: when both have positive extent along every axis); Contains(a,b) means every point of b is in a (in the interior when proper); Intersect is symmetric for every scalar type including doubles.", "quantifier": "all boxes and points of every dimension (exact arithmetic and binary64)", "why_tests_cant": "equivalence with set inclusion quantifies over all points of the boxes", "anchors": ["src/wfmath/intersect.h: Intersect(AxisBox,Point), Intersect(AxisBox,AxisBox), Contains(AxisBox,AxisBox)", "src/wfmath/intersect_decls.h: _Less, _LessEq, _Greater, _GreaterEq"]}
{"id": "C40", "title": "Intersection, Union and BoundingBox are lattice operations", "statement": "Intersection(out,a,b) returns true exactly when a and b meet and then out is exactly the set intersection; Union(a,b) is the smallest box containing both; BoundingBox of a non-empty list of points or boxes is the smallest box containing all of them, independent of order; boundingBox of a polygon is the smallest box containing the region it encloses.", "quantifier": "all boxes, all non-empty lists, every dimension", "why_tests_cant": "minimality quantifies over all candidate boxes; lists of every length", "anchors": ["src/wfmath/axisbox_funcs.h: Intersection, Union, BoundingBox", "src/wfmath/polygon_funcs.h: Polygon::boundingBox"]}
{"id": "C41", "title": "Axis box corners and moves are consistent", "statement": "setCorners accepts the two points in any order and stores low <= high spanning exactly the two points; getCorner(i), i < 2^dim, enumerates all corners without repetition of index patterns and each lies in the box; shift/moveCornerTo/moveCenterTo translate rigidly and put the named point at the target; isEqualTo is reflexive on finite valid boxes and false for invalid ones.", "quantifier": "all boxes, corners, targets, every dimension", "why_tests_cant": "2^dim corners for each dimension", "anchors": ["src/wfmath/axisbox_funcs.h: setCorners, getCorner", "src/wfmath/axisbox.h: shift, moveCornerTo, moveCenterTo, getCenter"]}
{"id": "C42", "title": "Ball predicates match Euclidean balls", "statement": "Up to the stated tolerance, Intersect(ball,point,false) is membership, Intersect(ball,ball) is overlap, Contains(ball,ball) is inclusion, Intersect(ball,box) is overlap with the box, Contains(box,ball) and Contains(ball,box) are inclusion; Intersect is symmetric; proper versions exclude boundary contact.", "quantifier": "all balls, boxes and points of every dimension", "why_tests_cant": "equivalence with inclusion of infinite sets", "anchors": ["src/wfmath/intersect.h: Intersect(Ball,*), Contains(Ball,*), Contains(AxisBox,Ball)"]}
{"id": "C43", "title": "Bounding spheres contain what they bound", "statement": "boundingSphere and boundingSphereSloppy of every shape contain all of its points, BoundingSphereSloppy of a list contains every listed point, and BoundingSphere is contained in BoundingSphereSloppy up to tolerance. In doubles the bounding spheres of segments and boxes pass the library's own test for every point of the shape.", "quantifier": "all shapes and all non-empty point lists, every dimension", "why_tests_cant": "lists of all lengths; sizes below 1 break a wrong power of the magnitude", "anchors": ["src/wfmath/ball_funcs.h: BoundingSphereSloppy, BoundingSphere", "src/wfmath/axisbox_funcs.h: boundingSphere, boundingSphereSloppy", "src/wfmath/rotbox.h: boundingSphere, boundingSphereSloppy", "src/wfmath/segment.h: boundingSphere", "src/wfmath/polygon_funcs.h: boundingSphere, boundingSphereSloppy"]}
{"id": "C44", "title": "Segment predicates match the segment as a point set", "statement": "With exact comparisons, Intersect(segment,point) is membership in the segment, Intersect(segment,box) is existence of a common point, Intersect(segment,ball) likewise, Intersect(segment,segment) likewise, and the corresponding Contains functions are inclusions. In double precision Intersect(segment,box) errs only for segments whose distance to the boundary of the box is a few rounding errors, and not at all for whole numbers up to 2^24. Intersect(segment,ball) errs only when the distance differs from the radius by a small multiple of the tolerance. With a tolerance Intersect(segment,point) accepts every point of the segment and only points near it.", "quantifier": "all segments, boxes, balls and points of every dimension", "why_tests_cant": "existential over the points of the segment", "anchors": ["src/wfmath/intersect.h: Intersect(Segment,*), Contains(*,Segment), Contains(Segment,*)"]}
{"id": "C45", "title": "Rotated boxes behave like axis boxes in their own frame", "statement": "Intersect(rotbox,point) holds exactly when the point, expressed in the box's frame, lies in the corresponding axis box; all 2^dim corners are in the box; boundingBox is the smallest axis box containing the corners; rotation about a point moves every corner by that rotation.", "quantifier": "all rotated boxes, points, orientations, every dimension", "why_tests_cant": "all orientations and sign patterns of the size vector", "anchors": ["src/wfmath/intersect.h: Intersect(RotBox,Point)", "src/wfmath/rotbox_funcs.h: getCorner, boundingBox", "src/wfmath/rotbox.h: rotatePoint"]}
{"id": "C46", "title": "Separating tests for rotated boxes never report a false separation", "statement": "If a rotated box and an axis box (or two rotated boxes) share a point then Intersect reports true, in 2D and 3D; in 2D and 3D a report of false is a proof of disjointness; a report of true with disjoint boxes does not occur.", "quantifier": "all pairs of boxes and orientations", "why_tests_cant": "separating axis completeness over all orientations", "anchors": ["src/wfmath/intersect.cpp: Intersect(RotBox<2>,AxisBox<2>), Intersect(RotBox<3>,AxisBox<3>)", "src/wfmath/intersect.h: Intersect(RotBox,RotBox)"]}
{"id": "C47", "title": "Shapes contain themselves, but not properly", "statement": "Contains(s,s,false) is true and Contains(s,s,true) is false for every valid shape s of positive extent, and Intersect(a,b,p) == Intersect(b,a,p) for all supported pairs.", "quantifier": "all valid shapes of every dimension", "why_tests_cant": "all coordinates, including degenerate ones", "anchors": ["src/wfmath/intersect.h: Contains, Intersect", "docs/shape.h: Contains, Intersect"]}
{"id": "C48", "title": "Rigid motions of shapes move all of their points", "statement": "shift, moveCornerTo, moveCenterTo, rotateCorner, rotateCenter and rotatePoint on Segment, Ball, AxisBox, RotBox, Line and Polygon move every corner by the same rigid motion, hold the named point (corner, centre or given point) as documented, and keep pairwise distances between corners.", "quantifier": "all shapes, vectors, rotations, corner indices", "why_tests_cant": "all orientations and corner counts", "anchors": ["src/wfmath/segment_funcs.h: moveCornerTo, rotateCorner", "src/wfmath/ball.h", "src/wfmath/rotbox.h", "src/wfmath/line.h", "src/wfmath/polygon_funcs.h: Poly2Orient::rotate2, Polygon::rotateCorner, rotateCenter"]}
{"id": "C49", "title": "Corner lists of lines and polygons behave like sequences", "statement": "addCorner/removeCorner/moveCorner/getCorner on Line and Polygon<2> refine insert/delete/update/read on a list for every in-range index; an out-of-range index is undefined; on Polygon<3> a rejected addCorner or moveCorner leaves the polygon unchanged and an accepted one appends/replaces exactly that corner with every other corner preserved.", "quantifier": "all operation histories and indices", "why_tests_cant": "histories of every length", "anchors": ["src/wfmath/line.h: addCorner, removeCorner, moveCorner", "src/wfmath/polygon.h: addCorner, removeCorner, moveCorner", "src/wfmath/polygon_funcs.h: Polygon<dim>::addCorner, moveCorner, Poly2Orient::expand, reduce"]}
{"id": "C50", "title": "Point-in-polygon is the even-odd rule", "statement": "Intersect(Polygon<2>,point,false) agrees with the even-odd crossing rule for points off the boundary, is independent of the starting corner and orientation of the polygon, and has no undefined behaviour for non-empty polygons.", "quantifier": "all polygons with any number of corners, all points", "why_tests_cant": "all corner counts and positions relative to the ray", "anchors": ["src/wfmath/polygon_intersect.cpp: Intersect(Polygon<2>,Point<2>,bool)"]}
{"id": "C51", "title": "Textual output reads back to the same object", "statement": "For every object whose coordinates print exactly, reading the text written by operator<< yields an equal object: coordinate lists, Vector, Point, AxisBox, Ball, Segment, RotBox, RotMatrix, Quaternion, Polygon and Line.", "quantifier": "all objects with any number of corners, any coordinate printer with an exact reader", "why_tests_cant": "lists of every length; separators depend on the number of corners", "anchors": ["src/wfmath/stream.cpp: _WriteCoordList, _ReadCoordList, operator<<, operator>>", "src/wfmath/stream.h: operator<<, operator>>"]}
{"id": "C52", "title": "Atlas encoding decodes to the same object", "statement": "fromAtlas(toAtlas(x)) equals x for every valid Vector, Point, Quaternion, AxisBox, Ball, Polygon, Line and RotBox with finite coordinates; malformed messages raise an error or leave an invalid object, never an out of bounds access.", "quantifier": "all objects and all Atlas messages", "why_tests_cant": "all message shapes and lengths", "anchors": ["src/wfmath/atlasconv.h: _ArrayFromAtlas, _ArrayToAtlas, fromAtlas, toAtlas"]}
{"id": "C53", "title": "Factorial functions compute factorials", "statement": "Factorial(n) == n! exactly for n < 10 and LogFactorial(n) == ln(n!) exactly for n < 10; the asymptotic series coefficients used above that are the Bernoulli terms B(2k)/(2k(2k-1)).", "quantifier": "all n below the cutoff; all table entries", "why_tests_cant": "the table is used only at large arguments where a wrong coefficient is below test tolerance", "anchors": ["src/wfmath/probability.cpp: Factorial, LogFactorial, LogGamma"]}
{"id": "C54", "title": "The miniball search keeps a valid support set", "statement": "Move-to-front minimal enclosing ball search terminates, its result encloses every input point, and the support points lie on the sphere.", "quantifier": "all finite point lists, every dimension", "why_tests_cant": "recursion over all list orders", "anchors": ["src/wfmath/miniball_funcs.h: mtf_mb, pivot_mb, push, max_excess"]}
{"id": "C55", "title": "Approximate equality of points, vectors and quaternions", "statement": "isEqualTo is symmetric and, on valid objects with finite coordinates and a non-negative tolerance, reflexive; it is monotone in the tolerance; two nonzero equal objects differ in each coordinate by at most 2*epsilon*min(max|a_i|,max|b_i|); at tolerance 0 in exact arithmetic it is equality of valid objects; quaternions compare equal exactly when they, or one and the negative of the other, agree within the tolerance in each component.", "quantifier": "all vectors and points of every dimension, all doubles / reals, all tolerances", "why_tests_cant": "rounding and exponent boundaries cannot be enumerated", "anchors": ["src/wfmath/vector_funcs.h: Vector::isEqualTo", "src/wfmath/point_funcs.h: Point::isEqualTo", "src/wfmath/const.cpp: _ScaleEpsilon"]}
{"id": "C56", "title": "Compound assignment with the object itself", "statement": "q *= q (and q.rotate(q)) leaves the value of q * q, and q /= q leaves the identity, for every unit quaternion q.", "quantifier": "all unit quaternions", "why_tests_cant": "aliasing of the argument matters only for particular call patterns; the wrong value depends continuously on q", "anchors": ["src/wfmath/quaternion.cpp: Quaternion::operator*=, Quaternion::operator/="]}
{"id": "C57", "title": "Rotated boxes against balls, segments and boxes", "statement": "Intersect and Contains between a rotated box and a ball, a segment, an axis box (Contains) or a rotated box (Contains) answer the set-theoretic question about the rotated box: they share a point / one is part of the other, boundaries excluded when proper is set, up to the documented epsilon tolerance.", "quantifier": "all rotated boxes with an orthogonal orientation, all balls, segments and boxes, every dimension, every epsilon >= 0", "why_tests_cant": "all orientations and relative positions", "anchors": ["src/wfmath/intersect.h: Intersect(RotBox,Ball), Contains(RotBox,Ball), Contains(Ball,RotBox), Intersect(RotBox,Segment), Contains(RotBox,Segment), Contains(Segment,RotBox), Contains(AxisBox,RotBox), Contains(RotBox,AxisBox), Contains(RotBox,RotBox)"]}
{"id": "C58", "title": "Polygons against points, balls, boxes and segments", "statement": "A point on the boundary of a polygon is in it unless proper is asked for. Contains(box or ball or rotated box, polygon) is true exactly when the whole region of the polygon is inside; Intersect(polygon, ball / box / rotated box / segment) is true exactly when the region and the shape share a point; Contains(polygon, ball / box / segment) is true only when the shape is part of the region; the same in space for the flat region of a Polygon<3>. None of the calls crashes.", "quantifier": "all polygons, convex or not, crossing themselves or not, and all shapes", "why_tests_cant": "all polygons and relative positions; the failures need a horizontal edge, a polygon wholly inside, or a special orientation", "anchors": ["src/wfmath/polygon_intersect.cpp: Intersect and Contains for Polygon<2>", "src/wfmath/polygon_intersect.h: Intersect and Contains for Polygon<dim>"]}
{"id": "C59", "title": "LogGamma and LogFactorial approximate the functions they name", "statement": "For n of 10 and more LogFactorial(n) is ln(n!) and Factorial(n) its exponential, and for z >= 1/2 LogGamma(z) is ln Gamma(z) and Gamma(z) its exponential, up to a relative error of the machine epsilon; below 1/2 the values follow from the reflection formula; no call fails an assertion.", "quantifier": "all unsigned n, all positive z, every machine epsilon", "why_tests_cant": "the error of an asymptotic series for all arguments; failures on small intervals", "anchors": ["src/wfmath/probability.cpp: LogGamma, Gamma, LogFactorial, Factorial"]}
{"id": "C60", "title": "Gaussian and Poisson give the density and the probability", "statement": "Gaussian(mean, stddev, x) is the density of the normal distribution at x and Poisson(mean, n) is exp(-mean) mean^n / n!; a zero stddev or a negative mean fails the assertion and no other input does.", "quantifier": "all means, standard deviations and values; all n", "why_tests_cant": "real arguments and all n", "anchors": ["src/wfmath/probability.cpp: Gaussian, Poisson, LogPoisson"]}
{"id": "C61", "title": "The conditional probabilities are what the header says", "statement": "PoissonConditional(mean, n) is P(X = n) / P(X >= n) for a Poisson variable X, and GaussianConditional(mean, stddev, x) is the density at x divided by P(X >= x) for a normal variable X; both end.", "quantifier": "all means, standard deviations, values and n; every machine epsilon", "why_tests_cant": "infinite series and continued fractions, all real arguments", "anchors": ["src/wfmath/probability.cpp: PoissonConditional, GaussianConditional, IncompleteGamma, IncompleteGammaComplement"]}
{"id": "C62", "title": "Polygons in space against each other, and a polygon in space that contains a box", "statement": "Intersect(Polygon<3>, Polygon<3>) is true exactly when the two flat regions share a point, Contains(outer, inner) only when the region of inner is part of that of outer, and Contains(Polygon<3>, AxisBox<3> or RotBox<3>) only when the box is part of the region; polygons whose corners are all on one line included. None of the calls crashes.", "quantifier": "all pairs of polygons, planes in every relative position, and all boxes", "why_tests_cant": "all pairs of planes and corner lists; the failures are systematic in the position and the angle of the planes", "anchors": ["src/wfmath/polygon_intersect.cpp: Intersect(Poly2Orient, Poly2Orient), PolyPolyIntersect, PolyPolyContains, GetCrossings, _PolyContainsBox"]}
{"id": "C63", "title": "Seeding from the surroundings", "statement": "seed() and MTRand() always leave a usable generator: seeded with 624 words of /dev/urandom if all of them can be read, else from time() and clock(). What the generator held before does not matter, and generators seeded one after another without the device produce different streams (randgen.cpp: 'guarantee time-based seeds will change').", "quantifier": "all behaviours of the device (missing, short, failing at any word), all values of time and clock, all numbers of earlier calls, all earlier states", "why_tests_cant": "depends on when the calls are made and on how many were made before; short reads and equal clocks cannot be provoked in a unit test", "anchors": ["src/wfmath/randgen.cpp: hash, MTRand::seed()", "src/wfmath/MersenneTwister.h: MTRand::MTRand()"]}
{"id": "C64", "title": "Real valued random numbers are in range", "statement": "rand(), rand<double>() and rand<float>() return a number in [0, 1] made from one word of the stream, increasing with the word; rand(n) is between 0 and n for every finite n. No rounding takes a value out of the range.", "quantifier": "all generator states, all 2^32 words, all finite doubles n", "why_tests_cant": "4294967296 words and every double n; an overshoot by one unit in the last place would be hit once in billions of calls", "anchors": ["src/wfmath/MersenneTwister.h: MTRand::rand"]}
{"id": "C65", "title": "Repeated products keep a quaternion near unit length", "statement": "However many products and quotients are formed, a valid quaternion keeps a length near 1: the age count makes the operators renormalise, so the errors never grow beyond what about twenty products introduce.", "quantifier": "all sequences of products, quotients, inversions and normalisations, of any length and nesting", "why_tests_cant": "a drift that multiplies by sixteen every five products is invisible in any short test and total after eighty", "anchors": ["src/wfmath/quaternion.cpp: Quaternion::operator*=, operator/=, normalize", "src/wfmath/quaternion.h: checkNormalization"]}
{"id": "C66", "title": "Angle, Parallel and Perpendicular", "statement": "Angle(v, u) is the angle between the vectors, between 0 and pi, and symmetric; Parallel says whether they lie on one line and same_dir whether they point the same way; Perpendicular says whether they meet at a right angle. Lengths play no part in the answer.", "quantifier": "all pairs of vectors of every dimension and length", "why_tests_cant": "the answers depend on two vectors of any length; the tolerance is absolute in some of the comparisons, so short vectors behave differently from the ones tests use", "anchors": ["src/wfmath/vector.h: Parallel", "src/wfmath/vector_funcs.h: Angle, Perpendicular"]}
{"id": "C67", "title": "Turns and mirrors named after an axis", "statement": "rotateX/Y/Z of a vector, rotationX/Y/Z of a matrix (with v * m), rotation(k, theta) of a quaternion and Vector::rotate(axis, theta) all turn by theta, right-handed, about the axis they name; m * v turns back. mirrorX/Y/Z flip the coordinate they name. The operators * on matrices and vectors compose. ZERO() is valid and zero in every coordinate.", "quantifier": "all vectors, all angles, all axes, every dimension", "why_tests_cant": "a swapped pair of axes or a sign shows only for particular vectors; angles are real numbers and the tolerance of Dot and Cross can remove components", "anchors": ["src/wfmath/vector.h: mirrorX, mirrorY, mirrorZ, Parallel", "src/wfmath/vector_funcs.h: rotateX, rotateY, rotateZ", "src/wfmath/vector.cpp: Vector<3>::rotate", "src/wfmath/rotmatrix.h: rotationX, rotationY, rotationZ, mirrorX, mirrorY, mirrorZ", "src/wfmath/rotmatrix_funcs.h: operator*", "src/wfmath/quaternion.cpp: Quaternion::rotation", "src/wfmath/zero.h: ZeroPrimitive"]}
{"id": "C68", "title": "Rounding in vector arithmetic", "statement": "In double arithmetic, as long as no intermediate value overflows: sums, differences, multiples and quotients of vectors are the nearest doubles to the exact values in each coordinate, and negation is exact; going from a point by the difference to another ends within three half units in the last place of it; Dot, sqrMag, mag, SquaredDistance, Distance, Cross and the product of a matrix and a vector are finite and within a few half units (dimension + 2, + 2, + 5, + 4, + 7, 3 and dimension + 2) of the exact value, measured against the sum of the sizes of the terms, except where Dot, Cross and the distances are cut to zero because they fall below the library's tolerance; sqrMag, mag and the distances are never negative; normalize gives a vector of the asked length and direction to within dimension + 11 half units; rotating a vector by a quaternion turns it by the rotation the quaternion stands for to within 640 half units of its length and twice what the quaternion's squared length is off; and Dot, Distance and vector addition are exactly symmetric in their operands for all doubles.", "quantifier": "all dimensions up to 2^26, all vectors and points with finite coordinates whose products do not overflow, all matrices with finite elements, all doubles c; for the symmetries all doubles including infinities and NaN", "why_tests_cant": "rounding errors depend on every bit of the operands; a test compares with another rounded computation and uses a tolerance far larger than the bound", "anchors": ["src/wfmath/vector_funcs.h: operator+=, operator-=, operator*=, operator/=, Dot, sqrMag", "src/wfmath/vector.h: mag, normalize", "src/wfmath/vector.cpp: Cross", "src/wfmath/point_funcs.h: SquaredDistance", "src/wfmath/point.h: Distance", "src/wfmath/rotmatrix_funcs.h: Prod, ProdInv", "src/wfmath/const.cpp: _ScaleEpsilon"]}
{"id": "C69", "title": "Precision of textual output", "statement": "Text written with a precision of 17 or more digits reads back to the identical object for every finite double coordinate, -0 included. Text written with p digits, 1 <= p <= 15, reads back to coordinates of the same sign within half a unit of the last digit (plus one unit of the last bit), and writing the result again with the same precision gives the same text. A coordinate that is infinite or not a number is never read back: reading throws ParseError.", "quantifier": "all finite doubles (zero or of size 2^-1021 to 2^1022 for p <= 15), all precisions, all dimensions, all points, boxes, balls, segments and plane polygons, any text after the object", "why_tests_cant": "there are 2^64 doubles and the worst cases for conversion are rare", "anchors": ["src/wfmath/stream.cpp: WriteCoordList, ReadCoordList, ToStringImpl, FromStringImpl, operator<<, operator>>", "src/wfmath/stream.h: ToString, FromString, operator<<, operator>>"]}
{"id": "C70", "title": "Rotation matrices in doubles", "statement": "In double arithmetic rotation(i, j, theta) and mirror(i) give the exact matrix to within 4 half units in the last place per element, whenever the sine and cosine do. However many such matrices are multiplied, the product stays orthogonal to within rounding, because its age makes it renormalise; and normalize() of a matrix that is orthogonal to within rounding succeeds and changes it by rounding only.", "quantifier": "all dimensions, all angles, all sequences of products and quotients by such matrices, all matrices of doubles that are orthogonal to within rounding", "why_tests_cant": "the error of the elimination depends on the size of the pivots it meets, so it shows only for particular orientations; the unit tests normalise random matrices, whose pivots are not small", "anchors": ["src/wfmath/rotmatrix.cpp: _MatrixInverseImpl", "src/wfmath/rotmatrix_funcs.h: RotMatrix::normalize, rotation, mirror, Prod, ProdInv", "src/wfmath/rotmatrix.h: checkNormalization"]}
{"id": "C71", "title": "Shapes of doubles meet their own corners, ends and centres", "statement": "In double arithmetic, Intersect of a shape with a point the library itself computed from the shape answers yes: the corners and the centre of an axis box and of a rotated box, the ends and the centre of a segment, the centre of a ball (with proper too, when the radius is positive). The centre of an axis box lies in the box.", "quantifier": "all finite shapes of doubles whose sizes stay clear of overflow, all dimensions", "why_tests_cant": "the tolerance of the tests is an absolute constant while the rounding errors of the computed point grow with the coordinates, so it depends on the size, the position and the orientation whether a point is met", "anchors": ["src/wfmath/intersect.h: Intersect(RotBox, Point), Intersect(AxisBox, Point), Intersect(Ball, Point), Intersect(Segment, Point)", "src/wfmath/rotbox_funcs.h: RotBox::getCorner", "src/wfmath/rotbox.h: getCenter", "src/wfmath/axisbox.h: getCenter", "src/wfmath/segment.h: getCenter", "src/wfmath/point_funcs.h: Midpoint"]}
{"id": "C72", "title": "Moving shapes of doubles again and again", "statement": "In double arithmetic, a shape shifted k times ends with every corner within (k+1) half units in the last place (of the largest coordinate on the way) of where exact arithmetic puts it; the corners of an axis box stay in order; radii, sizes and orientations do not change at all. Shifts and turns about points, mixed in any order, displace each point from where exact motions put it by at most a fixed small step (a few half units in the last place of the region moved in) per move, so the distances between the corners of a body stay what they were to within two such steps per move. moveCornerTo(p, i) puts corner i at p, and shifting there and back gives the shape one started from, to within rounding of the coordinates on the way.", "quantifier": "all axis boxes, segments, balls, rotated boxes, lines and plane polygons with finite double coordinates, all sequences of up to 2^26 shifts, all sequences of shifts and turns whose accumulated error stays below the size of the region, all dimensions, all target points", "why_tests_cant": "an object that is moved every frame accumulates rounding errors over a history no test replays", "anchors": ["src/wfmath/axisbox.h: shift, moveCornerTo", "src/wfmath/segment_funcs.h: moveCornerTo", "src/wfmath/segment.h: shift", "src/wfmath/ball.h: shift, moveCenterTo", "src/wfmath/rotbox.h: shift, moveCornerTo", "src/wfmath/line_funcs.h: shift", "src/wfmath/polygon.cpp: Polygon<2>::shift", "src/wfmath/point.h: operator+, operator-"]}
{"id": "C73", "title": "The numeric constants are correctly rounded", "statement": "numeric_constants<F>::pi, sqrt_pi, log_pi, sqrt2, sqrt3 and log2 are, for F = float and F = double, the number of type F nearest to the real number they are named after: no other number of the type is nearer. epsilon() is exactly 30 times the gap between 1 and the next number of the type.", "quantifier": "all numbers of the type float and all of the type double, as competitors for each constant", "why_tests_cant": "that a literal is the nearest of 2^64 numbers to pi or to a logarithm cannot be observed by a test, which has nothing more exact to compare with", "anchors": ["src/wfmath/const.h: numeric_constants<float>, numeric_constants<double>, WFMATH_PRECISION_FUDGE_FACTOR"]}
{"id": "C74", "title": "The outputs of a generator determine its future and its past", "statement": "Two generators that return the same 624 consecutive words return the same words for ever; fewer words do not suffice. Conversely nothing is forgotten: if their words agree over any 624 consecutive calls they have agreed from the start. A seeded generator never returns 624 zeros in a row, however long it runs.", "quantifier": "all pairs of generators, all numbers of calls before the words compared, all seeds and seed arrays", "why_tests_cant": "ranges over all 2^19968 states and unbounded histories; a test can neither enumerate states nor observe that two of them never merge", "anchors": ["src/wfmath/MersenneTwister.h: MTRand", "src/wfmath/randgen.cpp: MTRand::randInt"]}
