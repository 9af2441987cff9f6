# Formal model of worldforge/wfmath: design

Source modelled: `/repo/src/wfmath` at the pinned commit. Proof assistant: Coq
8.16.1. All Coq files are in `rocq/theories`, logical name `Verif`.

## 1. How the code is modelled

* **One model, several number types.** wfmath computes with `double`. Every
  numeric function is written once, over an explicit record (type class) `Num T`
  (`theories/Scalar.v`) holding the operations the C++ uses: `+ - * /`,
  `fabs`, `sqrt`, `sin`, `cos`, `atan2`, `acos`, `<`, `<=`, `==`, the exponent
  returned by `frexp`, `ldexp`, integer literals and `epsilon()`. Loops are left
  folds in source order, so the same definition is meaningful for floats.
  Three instances are used:
  1. *any* `Num` at all: theorems about validity flags, age counters, loop
     structure, symmetry that does not depend on arithmetic;
  2. `Rnum eps`, exact real arithmetic with an arbitrary `eps >= 0` standing for
     the library's epsilon: algebraic and geometric laws. With `eps = 0` the
     clamps in `Dot`, `Cross` and `SquaredDistance` disappear, with `eps > 0`
     the theorems carry explicit error bounds;
  3. `B64 m`, IEEE binary64 as specified by the standard library's `SpecFloat`
     (round to nearest even, subnormals, infinities, one NaN), with `sin`, `cos`,
     `atan2`, `acos` arbitrary functions: theorems that hold for actual doubles
     (order and selection facts, `Equal`, the `AxisBox` predicates), and concrete
     witnesses of defects, computed by `vm_compute`.
* **Integer code** (`timestamp`, `int_to_string`, the Mersenne twister) uses `Z`
  or `N` with the width written out: unsigned operations are `mod 2^32` /
  `mod 2^64`, signed overflow is a distinct undefined outcome.
* **Undefined behaviour and assertions are outcomes.** Functions that can assert,
  throw, read out of bounds or overflow return `option` or the outcome type of
  their file. No theorem relies on what happens after such an outcome unless it
  says so.
* **Arrays** `CoordType[dim]` are lists of length `dim`; dimension is a `nat`
  variable, never fixed, except in the code that exists only for 2 or 3
  dimensions (cross products, quaternions).
* **Mutation** is modelled by returning the new value. Where the C++ mutates an
  argument that aliases another expression the aliasing is kept (see
  `Poly2Orient::rotate2`).

Every definition cites the file and lines it models and states simplifications.

## 2. Files

`*Model.v` hold definitions only, each citing the lines it models; `*Spec.v` are short
specifications that do not use the model's helpers; `*Proofs.v` and `*Lib.v` hold lemmas;
`Prop*.v` hold the property theorems (named `Cxx_...`), each followed by
`Print Assumptions`, with an `Example` beside it showing that a concrete case meets the
hypotheses. `_refuted` theorems show with a witness that the property as listed is false of
the code; `_partial` theorems say what holds instead or cover part of the property.

* `Base` Outcomes of C++ operations.
* `TimeModel` Model of src/wfmath/timestamp.h and timestamp.cpp (POSIX branch, 64-bit [long], [time_t] and [suseconds_t]).
* `TimeSpec` Independent specification for the time classes: integers of microseconds.
* `TimeProofs` Proofs about the time classes.
* `PropTime` Property theorems for the time classes: C01, C02, C03 and the time part of C14.
* `IntStrModel` Model of src/wfmath/int_to_string.cpp (64-bit unsigned long, not _MSC_VER).
* `IntStrSpec` Decimal numerals, independently of how they are produced.
* `IntStrProofs` Proofs about the digits written.
* `PropIntStr` Property theorems for integer to string conversion: C04. A [Ret] outcome means that no write or read left the buffer and no signed overflow happened.
* `MTModel` Model of src/wfmath/MersenneTwister.h and randgen.cpp: the MTRand class.
* `MTSpec` Specification of the Mersenne twister as an infinite recurrence.
* `MTProofs` Proofs about the Mersenne twister model.
* `MTProofs2` Bounded integers and the text form of the generator.
* `PropMT` Property theorems for the random number generator: C05 to C09. [Ret] means that no array access was out of bounds.
* `ShuffleModel` Model of src/wfmath/shuffle.h.
* `ShuffleSpec` What a sequence of random choices for shuffling is.
* `ShuffleProofs` Proofs about Shuffle.
* `PropShuffle` Property theorems for Shuffle: C10.
* `Scalar` The number type of the library.
* `ConstModel` Model of src/wfmath/const.h and const.cpp.
* `VecModel` Model of the Vector and Point classes: src/wfmath/vector.h, vector_funcs.h, vector.cpp, point.h, point_funcs.h, point.cpp, basis.h, zero.h (the parts that do not use matrices or quaternions).
* `RSpec` Specification vocabulary for the exact-real theorems: finite sums and the Euclidean notions of R^n, on functions from indices to reals.
* `RLib` Lemmas about finite sums, arrays and the real instance of the scalar.
* `OrdLib` What the comparison-only theorems need from a number type, and the proof that the reals and the non-NaN doubles provide it.
* `B64Lib` Facts about binary64 as specified by [SpecFloat], by transfer from Flocq.
* `ConstSpec` Specification vocabulary for C11-C13.
* `ConstProofs` Proofs about Equal, FloatMax, FloatMin and FloatClamp.
* `PropConst` Property theorems C11, C12, C13 (const.h, const.cpp).
* `VecSpec` Specification vocabulary for vectors and points.
* `VecProofs` Proofs about vectors and points over the reals (any dimension).
* `VecProofs2` Proofs about cross products, sloppyMag, polar coordinates (dimensions 2 and 3).
* `VecProofs3` sloppyMag in three dimensions, sloppyNorm, polar and spherical coordinates.
* `VecProofs4` Proofs for C17 (refutation), C37, C38 and C55.
* `VecProofs5` Assembly of the vector and point theorems.
* `PropVec` Property theorems C15-C22, C37, C38 and C55 (vector.h, point.h and their implementation files).
* `RotModel` Model of the RotMatrix class: src/wfmath/rotmatrix.h, rotmatrix_funcs.h, rotmatrix.cpp (the parts that do not use quaternions), and of the Vector and Point functions that use matrices.
* `RotSpec` Specification vocabulary for rotation matrices.
* `MatLib` Lemmas about matrices given as functions of row and column.
* `RotProofs` The elimination behind normalize() and setVals(): success gives the exact inverse.
* `RotProofs2` Constructors and products of rotation matrices in exact arithmetic.
* `RotProofs3` Group laws, ages, and the action of the constructed rotations on vectors.
* `RotProofs4` setVals: what is accepted, what is stored, and that the loop ends.
* `RotProofs5` normalize() cannot fail on orthogonal matrices (2D, and 3D without denormal elements in the first row); the determinant computed by setVals has the right sign.
* `RotProofs6` normalize() succeeds on rotations; the determinant of setVals in 2D; the antiparallel case of rotation(from, to); rotations about an axis.
* `RotProofs7` The counterexample for antiparallel vectors in 2D, and rotations about an axis.
* `PropRot` Properties C23 - C30: rotation matrices.
* `QuatModel` Model of the Quaternion class: src/wfmath/quaternion.h, quaternion.cpp, and of the RotMatrix, Vector and Point functions that use quaternions (rotmatrix.cpp 39-96, vector.cpp 93-100, point.cpp 99-123).
* `QuatSpec` Specification vocabulary for quaternions: Hamilton's quaternions.
* `QuatProofs` Proofs about quaternions over the reals: products, norms, rotation of vectors.
* `QuatProofs2` Constructors give unit quaternions; group laws; action on vectors.
* `QuatProofs3` Group laws and the action of quaternions on vectors.
* `QuatProofs4` Rotation between two vectors; quaternions and matrices.
* `QuatProofs5` Conversions, mixed rotations, alignment of vectors, ages, equality, aliasing.
* `QuatProofs6` Rounded products, ages, validity, equality, self assignment, counterexamples.
* `QuatProofs7` Counterexamples, Vector::rotate(axis, theta), points.
* `PropQuat` Properties C31 - C36 and C56, and the quaternion parts of C14, C24, C26, C27, C55. [exact_pair eps a b] says that Dot(a, b) and Cross(a, b) do not replace a component by zero; with tolerance 0 that is always so ([exact_pair_0]).
* `ValidSpec` Specification of C14: expressions over vectors, points, matrices and quaternions of any scalar type, and the validity of their leaves.
* `ValidProofs` Proofs for C14.
* `PropValid` Property C14: validity flags, in any scalar arithmetic.
* `ShapeModel` Model of the shape classes AxisBox, Ball, Segment and RotBox: src/wfmath/axisbox.h, axisbox_funcs.h, ball.h, ball_funcs.h, ball.cpp, segment.h, segment_funcs.h, segment.cpp, rotbox.h, rotbox_funcs.h, rotbox.cpp.
* `IntersectModel` Model of Intersect and Contains for Point, AxisBox, Ball, Segment and RotBox: src/wfmath/intersect_decls.h, intersect.h, intersect.cpp.
* `ShapeSpec` Specification vocabulary for shapes: the set of points each shape stands for.
* `ShapeProofs` Axis boxes: proofs.
* `ShapeProofs2` Axis boxes: Intersection, Union, BoundingBox, moves.
* `B64Ops` Rounding of the binary64 operations, by transfer from Flocq.
* `ShapeProofs3` Axis boxes: corners, moves, equality, doubles.
* `PropBox` C39-C41: axis boxes.
* `BallProofs` Balls: proofs.
* `PropBall` C42: balls.
* `SphereProofs` Rotated boxes as point sets, and bounding spheres: proofs.
* `PropSphere` C43: bounding spheres (and the bounding boxes of balls and segments, C40).
* `SegProofs` Segments: proofs (exact comparisons).
* `SegProofs2` Segments against boxes, balls and segments: proofs.
* `SegProofs3` Segments against balls and segments: proofs (exact comparisons).
* `SegProofs4` Two segments: proofs (exact comparisons).
* `PropSeg` C44: segments.
* `RbProofs` Rotated boxes in their own frame: proofs.
* `RbProofs2` Rotated boxes: bounding boxes, inclusion between boxes, rotation.
* `SatProofs` Two boxes in the plane: the separating-axis test is complete.
* `SatProofs2` The face tests of rotated and axis boxes.
* `PropRotBox` C45: rotated boxes, and their tests against the other shapes (C57).
* `HellyProofs` Convex sets: linear dependence, Radon's and Helly's theorems, slabs.
* `SatProofs3` Two boxes in space: the fifteen axes are enough.
* `SatProofs4` The 3D test is the fifteen-axis test.
* `SatProofs5` Tolerances of the box tests, and two rotated boxes.
* `PropSat` C46: intersection of rotated boxes in the plane and in space.
* `PolyModel` Model of Line, Polygon<2> and Polygon<dim>: src/wfmath/line.h, line_funcs.h, polygon.h, polygon_funcs.h, polygon.cpp (corner lists, motions, changes of coordinates and bounds; the intersection tests are in PolyIntersectModel.v).
* `MotionSpec` Specification vocabulary for motions of shapes.
* `MotionProofs` Rigid motions, and how the motion functions of each shape act.
* `MotionProofs2` Proofs about motions of corner lists and of polygons in space.
* `PropMotion` C48: motions of shapes; C36: changes of coordinates of shapes.
* `PropCoord` C36: shapes in the coordinates of a parent frame and back.
* `PropSelf` C47: a shape contains itself, but not properly, and Intersect does not depend on the order of its arguments.
* `PolySpec` Specification vocabulary for corner lists: what inserting, deleting and replacing an element of a sequence does, read by index; and the polygons in space that the API builds.
* `PolyProofs` Proofs about corner lists and about adding, removing and moving corners of a polygon in space.
* `PropPoly` C49: corner lists of lines and polygons.
* `PolyIntersectModel` Model of Intersect and Contains for Polygon<2> and Polygon<dim>: src/wfmath/polygon_intersect.cpp.
* `EvenOddSpec` The even-odd rule for polygons in the plane, stated with rays in every direction.
* `EvenOddProofs` Crossing parities: rays in two directions cross the sides of a closed polygon equally often, modulo 2.
* `PropPolyPoint` C50: whether a polygon in the plane contains a point.
* `StreamModel` Model of the text input and output: src/wfmath/stream.h, stream.cpp.
* `StreamSpec` Specification vocabulary for text input and output: when the conversion of numbers is exact, and what the text of a list of coordinates is.
* `StreamProofs` Lemmas for the text round trips.
* `StreamProofs2` Lemmas for the text of polygons in space, matrices and quaternions.
* `PropStream` C51: text written by operator<< is read back by operator>>.
* `AtlasModel` Model of the conversions to and from Atlas messages: src/wfmath/atlasconv.h.
* `AtlasSpec` Specification vocabulary for Atlas messages.
* `AtlasProofs` Lemmas for Atlas messages.
* `PropAtlas` C52: objects sent as Atlas messages come back, and what happens to other messages.
* `MiniballModel` Model of src/wfmath/miniball.h, miniball_funcs.h, wrapped_array.h and of BoundingSphere (ball_funcs.h 56-89): the smallest enclosing ball of a list of points.
* `MiniballSpec` Specification vocabulary for enclosing balls of lists of points of R^d.
* `MiniballProofs` Balls given by centre and squared radius: certificates of minimality and the lemmas of Welzl's algorithm.
* `MiniballProofs2` The arrays of the basis: invariants and the effect of push.
* `MiniballProofs3` The move-to-front recursion computes the smallest ball (Welzl's algorithm), in exact arithmetic.
* `MiniballProofs4` What holds of the search for any arithmetic: it ends, keeps the points, and never uses more than d + 1 of them.
* `MiniballProofs5` The pivoting search computes the smallest ball and ends, in exact arithmetic.
* `PropMiniball` C54: the miniball search; and BoundingSphere of a list (C43).
* `ProbModel` Model of src/wfmath/probability.cpp.
* `Stirling` Stirling's formula for factorials with a bound for its error (used for C53 and C59).
* `GammaSpec` What the Gamma function is: Gauss's limit of n! n^z / (z (z+1) ... (z+n)).
* `GammaProofs` Gauss's limit exists for positive numbers, satisfies the functional equation, is the factorial at the integers and is bounded by Stirling's series (C59).
* `BernoulliSpec` The Bernoulli numbers (C53).
* `ProbSpec` The distributions of probability.h as mathematics (C60, C61).
* `ProbProofs` LogGamma at the integers, in exact arithmetic (C53, C59).
* `ProbProofs2` LogGamma on the real line, and where it fails (C59).
* `ProbProofs3` Gaussian and Poisson (C60).
* `ProbProofs4` PoissonConditional: the power series and the continued fraction (C61).
* `ProbProofs5` PoissonConditional: the loops of the model and the result (C61).
* `ProbProofs6` PoissonConditional: the tail of the distribution and the result (C61).
* `ProbProofs7` The table of coefficients (C53) and GaussianConditional (C61).
* `PropProb` The functions of probability.h.
* `RegionSpec` The set of points a polygon in the plane stands for.
* `RegionProofs` The region of a polygon in the plane: its boundary separates it from the rest.
* `PolyShapeProofs` Polygons in the plane against points, balls and convex shapes, in exact arithmetic.
* `PolyShapeProofs2` Polygons in the plane inside boxes, rotated boxes, segments and points.
* `PolyBoxProofs` Polygons in the plane against axis-aligned boxes, in exact arithmetic.
* `PolyBoxProofs2` Polygons in the plane against axis-aligned boxes: going round the polygon.
* `PolyRbProofs` Polygons in the plane against rotated boxes: everything is carried into the frame of the box.
* `PropPolyShape` C58: polygons in the plane against points, balls, boxes, rotated boxes, segments and each other, in exact arithmetic.
* `SpaceSpec` The set of points a polygon in space stands for, and the frames its operations leave behind.
* `PolySpaceProofs` Polygons in space against balls, boxes, rotated boxes and segments, in exact arithmetic.
* `PolySpaceProofs2` Polygons in three dimensions against segments, in exact arithmetic.
* `PolySpaceProofs3` The axes of a polygon in space are zero or unit vectors after any sequence of operations on its corners.
* `PolySpaceProofs4` Polygons in space against boxes and rotated boxes: a positive answer of the intersection tests is right, in exact arithmetic.
* `PolySpaceProofs5` The plane test of polygons against boxes in three dimensions, in exact arithmetic.
* `PropSpace` C58 for polygons in space: against balls, boxes, rotated boxes and segments in exact arithmetic, and where the tests of points and boxes go wrong.
* `PolyPolyModel` Model of the rest of src/wfmath/polygon_intersect.cpp: polygon against polygon in space, and a polygon in space containing a box.
* `PolyPolyProofs` Two polygons in space: the planes, in exact arithmetic.
* `PolyPolyProofs2` Two polygons in space: what the tests answer, in exact arithmetic.
* `PolyPolyProofs3` Two polygons in space whose planes are at right angles.
* `PolyPolyProofs4` Polygons in space all of whose corners are on one line, in exact arithmetic.
* `PropPolyPoly` C62: two polygons in space against each other, and a polygon in space that contains a box.
* `RandModel` Model of the rest of src/wfmath/MersenneTwister.h and randgen.cpp: real valued random numbers, and seeding from the environment.
* `RandSpec` Specification vocabulary for seeding from the environment.
* `MTProofs3` Different seeds give different streams: the outputs determine the words before them.
* `FloatOps` Conversion from integers and products of IEEE numbers of any precision, by transfer from Flocq.
* `RandProofs` Real valued random numbers and seeding from the environment: proofs.
* `PropRand` C63: seeding from the surroundings; C64: real valued random numbers; and what different seeds give (C09).
* `PolySphereModel` Model of the exact bounding spheres of lines and polygons: src/wfmath/line.h, polygon.h, polygon_funcs.h.
* `PolyBoundProofs` Bounding boxes and spheres of polygons in space: proofs.
* `PropPolyBound` C40 and C43 for polygons: the bounding box, the sloppy bounding sphere and the smallest bounding sphere of a polygon in the plane and in space.
* `SineProduct` Euler's product for the sine, by the integrals of cos (2 z t) cos^2m t over a quarter turn; and the reflection formula of the Gamma function.
* `PropGamma` C59 below 1/2: LogGamma and Gamma by reflection are what they are meant to be.
* `GaussInt` The integral of exp (-t^2 / 2), and the tail of the normal distribution (C61).
* `MillsProofs` The continued fraction for the tail of the normal distribution (C61).
* `MillsProofs2` The loop of the continued fraction at one half (C61).
* `GaussSeries` The power series for the mass of the normal distribution near the mean (C61).
* `GaussProofs` GaussianConditional over the whole line (C61).
* `PropGauss` C61, GaussianConditional everywhere: right beyond the square root of three standard deviations, wrong nearer the mean.
* `DetSign3` The determinant routine gives the sign of the determinant of a 3 by 3 matrix that is orthogonal within 1/100 (C29).
* `PropParity` C29: the parity flag that setVals stores is the sign of the determinant of what it stores.
* `DriftProofs` How far the length of a quaternion can drift from 1 in products (C65).
* `PropDrift` C65: the length of a quaternion under any number of products.
* `AngleProofs` Angle, Parallel and Perpendicular over the reals (any dimension).
* `PropAngle` C66: Angle, Parallel and Perpendicular.
* `TolProofs` Rotation by a quaternion with a positive tolerance and no condition on the vectors: Dot and Cross may round to zero, the results stay within a multiple of the tolerance.
* `TolProofs2` rotation(from, to) with a positive tolerance and no condition on Dot and Cross.
* `PropTol` C31, C32, C35 and C36 with a positive tolerance and without the condition that Dot and Cross keep every component ([exact_pair] in PropQuat): what the tolerance can cost.
* `WrapModel` Short names for operations modelled elsewhere: operators on matrices, mirrors and turns named after an axis, Parallel with two arguments, the zero constants.
* `WrapProofs` Turns about the coordinate axes and about any axis.
* `PropWrap` C67: turns and mirrors named after an axis, the operators on matrices, Parallel with two arguments and the zero constants mean what their names say.
* `RoundLib` The binary64 operations as exact operations followed by one rounding, with error bounds.
* `RoundSpec` Specification vocabulary for the rounding theorems: the real numbers that doubles denote, and the size of one rounding error.
* `RoundProofs` ** Powers of 1 + u.
* `RoundProofs2` .
* `RoundProofs3` ** One rounding after another.
* `RoundProofs4` ** Square roots.
* `RoundProofs5` .
* `PropRound` C68: rounding in vector arithmetic.
* `BoxDouble` Boxes of doubles: the functions that only compare and choose commute with the passage to real numbers.
* `PropBoxDouble` C39, C40 and C41 for boxes of doubles.
* `BallDouble` The point-in-ball test in doubles: the factor (1 + epsilon) on the squared radius covers the rounding errors.
* `PropBallDouble` C42 for balls and points of doubles (vocabulary in RoundSpec: [doubles], [rco], [real], [lib_eps]).
* `DecModel` The conversion of one double to text and back, which stream.cpp 240-263 and stream.h leave to the standard library: operator<<(ostream, double) with the stream's precision and no other formatting state, that is printf's %.*g in the C locale, and operator>>(istream, double), that is strtod on the longest text that can be a number.
* `DecSpec` Specification vocabulary for numbers written as decimal text.
* `DecProofs` Decimal texts: what the layout of digits denotes, and that reading it gives the nearest double.
* `DecProofs2` Decimal texts: reading gives the nearest double, printing gives the nearest decimal.
* `DecProofs3` Decimal texts: 17 digits determine a double, 15 digits survive being read and written again.
* `PropDec` C69: numbers as decimal text.
* `PolySpaceLine` Polygons in space whose corners are on one line or at one point, against boxes, in exact arithmetic.
* `PropSpaceLine` C58 for polygons in space whose corners are on one line or all in one place, against boxes and rotated boxes, in exact arithmetic.
* `QuatRoundSpec` Specification vocabulary for quaternions of doubles: the Hamilton quaternion a quaternion of doubles denotes, the length of a Hamilton quaternion, its direction, and distances.
* `QuatRound` Rounding in products of quaternions.
* `QuatRound2` Rounding in products of quaternions: the product, the quotient and the normalisation.
* `QuatRound3` Lengths, directions and distances of Hamilton quaternions, and chains of products of quaternions of doubles.
* `PropQuatDouble` C31 and C65 in doubles: the rounding error of one product, and of any number of them.
* `PolySpaceSeg` Polygons in space against points, balls and segments: what the plane test guarantees, and segments that contain a polygon.
* `PropSpaceSeg` C58: polygons in space against points, balls and segments.
* `QuatRound4` Rounding when a vector is rotated by a quaternion.
* `QuatRound5` Rounding when a quaternion is made from four numbers, from an axis and an angle.
* `PropQuatDouble2` C65 and C68 in doubles: quaternions as they are made, vectors and points rotated by them, and vectors rotated by the result of any number of operations.
* `RotRoundSpec` Specification vocabulary for rotation matrices of doubles.
* `RotRound` Products of rotation matrices in doubles.
* `PropRotDouble` C70 Rotation matrices in doubles.
* `PropRotDouble2` C29 and C51 in doubles: setVals() and reading a matrix from text.
* `PropPolyPoly2` C62 again: polygons all of whose corners are at one point of space (one corner, or the same corner again: no axis is set).
* `PropSelf2` C47 for polygons in the plane: none contains itself, and the order of the arguments of Intersect matters.
* `CoordRound` Coordinates of points in doubles: the rounding errors of the conversions between frames.
* `PropCoordDouble` C36 Coordinates of points in doubles: how exact the conversions between frames and the turns about a point are, and how far a point that goes to another frame and back ends from where it was.
* `SphereDouble` Bounding spheres in doubles: the centre, the radius, and the test of a point against the sphere.
* `PropSphereDouble` C43 Bounding spheres of segments and boxes in doubles.
* `RbDouble` Rotated boxes of doubles: the coordinates along the edges, and the comparisons of the tests.
* `OwnDouble` Doubles: the centre of a box, the centre of a ball and the ends of a segment.
* `PropOwnDouble` C45 and C71 in double precision: which points of a rotated box are met, and whether shapes meet their own corners, ends and centres.
* `PropMoveDouble` C72: moving shapes of doubles, any number of times.
* `PropMoveDouble2` C72, continued: histories of shifts and turns.
* `PropDec2` C69, continued: halfway cases go to the even digit, numbers too large are refused and every number read is finite.
* `LitModel` The constants of const.h: decimal literals, converted by the compiler.
* `LitProofs` Decimal enclosures of pi, ln pi, ln 2 and the roots, and the numbers nearest to them.
* `LitRound` Literals in a format of any precision are the nearest numbers.
* `PropLit` C73: the numeric constants are the numbers nearest to what they are named after.
* `SegDouble` Segments and axis boxes of doubles: the clipping loop.
* `SegDouble2` Segments and axis boxes of doubles whose coordinate differences are exact; whole numbers.
* `PropSegDouble` C44 for doubles: a segment against an axis box, boxes and balls containing segments.
* `MTInverse` The twister runs backwards: its state is determined by 624 consecutive outputs.
* `PropMTInverse` C74: the outputs of the generator determine its future and its past.
* `MTLive` Lemmas for C06/C10: no output bit of the generator is 1 for ever, so the loop of randInt(n) ends.
* `PropMTLive` C06, C10: the rejection loop of randInt(n) ends, and so does Shuffle, for every state of the generator.
* `SegBallDouble` Segment against ball in doubles: the point of the segment that is tested is nearly the nearest one, and the distance to it is computed to within a multiple of the tolerance.
* `PropSegBallDouble` C44 for doubles: a segment against a ball.
* `SegPointTol` A segment against a point, with any comparison epsilon: proofs.
* `PropSegPointTol` C44: a segment against a point, with any comparison epsilon, and the short segments where it goes wrong.
* `SegPointDouble` A segment against a point in doubles: proofs.
* `PropSegPointDouble` C44 for doubles: a segment against a point.
* `PropSegBallTol` C44: a segment against a ball, with any comparison epsilon.
* `ProbDoubleModel` The double instance of what probability.cpp takes from const.h and from the C library.
* `ProbDoubleSpec` Specification vocabulary for the probability functions in doubles.
* `GaussDouble` The normal density in doubles: proofs.
* `PropGaussDouble` C60 in doubles: the normal density.
* `PoissonDouble` Poisson in doubles, below the cutoff: proofs.
* `PropPoissonDouble` C60 in doubles: Poisson below the cutoff.
* `TailDouble` The continued fraction in doubles, when its first term overflows: proofs.
* `PropTailDouble` C61 in doubles: GaussianConditional far above the mean.
* `SeriesDouble` The power series in doubles: proofs.
* `PropSeriesDouble` C61 in doubles: PoissonConditional by the power series.
* `TailDouble2` The continued fraction in doubles, for arguments next to the largest double: proofs.
* `SeriesDouble2` The power series in doubles: how close its sum is.
* `PropSeriesDouble2` C61 in doubles: how close PoissonConditional is to the true probability.
* `LogGammaDouble` LogFactorial from the cutoff on, in doubles: proofs.
* `PropLogGammaDouble` C59 in doubles: LogFactorial and Factorial from the cutoff on.
* `PoissonDouble2` Poisson in doubles from the cutoff on: proofs.
* `PropPoissonDouble2` C60 in doubles: Poisson from the cutoff on, and the arguments that are refused.
* `LogGammaDouble2` LogGamma and Gamma in doubles at every argument from the cutoff on: proofs.
* `PropLogGammaDouble2` C59 in doubles: LogGamma and Gamma at every double from the cutoff, 10, on, whole or not.
* `PropGaussDouble2` C61 in doubles: GaussianConditional at the mean and PoissonConditional at 0.
* `PropAge` C26: the age of a quaternion goes over to the matrix made from it, and counts in the products of that matrix.

## 3. Plan per property

* **C01** Time arithmetic is exact and stays in normal form. Model `regularize`, constructors and all operators on Z fields with checked 64-bit signed arithmetic. Spec: total microseconds. Induction over expression trees (refinement to Z).
* **C02** Time comparisons are a chronological total order. Same model; order statements by lexicographic order versus total microseconds.
* **C03** Millisecond construction and read-back agree. Exact characterisation of when the round trip holds; `_refuted` witness (1500 ms).
* **C04** Integer to decimal string conversion is exact and in bounds. Model the buffer as an array with explicit bounds checks; strong induction on the value; decimal reader as spec.
* **C05** The generator never indexes outside its state. Model state as a list of 624 words with checked reads/writes; invariant over call histories.
* **C07** Saving and loading a generator preserves its future. Model the text (decimal words, tab separators) and `operator>>` for unsigned; equality of generator state gives equality of streams.
* **C08** Output stream is the MT19937 recurrence. Refinement: in-place block refill against the infinite recurrence, induction over blocks and positions.
* **C09** Seeding determines the stream. seed functions do not read the old state (state is overwritten); recurrence by induction; state[0] = 2^31 after array seeding.
* **C11** Approximate equality is reflexive, symmetric and monotone in the tolerance. binary64 instance (SpecFloat) and real instance.
* **C12** Approximate equality is relative to the smaller operand. Real instance, Flocq's `mag` for the frexp exponent.
* **C13** FloatMax, FloatMin and FloatClamp select correctly. binary64 instance through SpecFloat comparison, and the real instance.
* **C14** Invalid operands never yield equality and always yield invalid results. Any Num; `_refuted` for AxisBox::setCorners and RotMatrix::fromQuaternion.
* **C15** Vectors and points form an affine space. Real instance, any dimension.
* **C16** Dot is the inner product up to its documented clamp. Real instance, any dimension, bound on the clamp.
* **C17** Dot of a vector with itself is its squared magnitude. `_refuted` at reals and binary64; exact condition under which it holds.
* **C18** The 3D cross product is antisymmetric, bilinear and orthogonal to its factors. Real instance, ring identities and clamp bound.
* **C19** The 2D cross product is antisymmetric. `_refuted`; exact description of what the function computes.
* **C20** sloppyMag brackets the true magnitude. Real instance with exact sqrt constants; polynomial inequalities (nra).
* **C21** Normalising and reflecting vectors. Real instance, any dimension.
* **C22** Polar and spherical coordinates round trip. `_refuted`; what is preserved (radius) and what is swapped.
* **C23** Every rotation matrix the API can build is orthogonal. Real instance, any dimension: inductive type of matrix expressions, invariant M M^T = I.
* **C24** The parity flag is the sign of the determinant. 2D and 3D determinants as explicit polynomials; invariant over expressions; `_refuted` for fromQuaternion(q,false).
* **C25** Rotation matrices form a group acting on vectors. Real instance, any dimension; uses exactness of normalize on orthogonal matrices.
* **C26** Round-off age is bounded by renormalisation. Any Num for the counter; real instance for the value.
* **C27** Normalisation converges quadratically. Matrix algebra over R with the inverse from C28.
* **C28** Matrix inversion is exact whenever it reports success. Model the elimination with row operations; loop invariant: out = P, in = P*orig for invertible P; any size.
* **C29** setVals accepts only near-orthogonal input and yields an orthogonal matrix. Fuelled iteration; partial correctness for every fuel; parity via determinant of the elimination.
* **C30** Rotations between given vectors do what they say. Real instance, any dimension for plane rotations; rank-2 update algebra.
* **C31** Quaternions stay unit and form a group. Real instance with eps = 0, expression trees; clamp error bound for eps > 0.
* **C32** Quaternion rotation composes in the documented order. Real instance with eps = 0, ring identities.
* **C33** Quaternion and matrix describe the same rotation. Real instance; branch by branch; `_refuted` for trace <= 0 and for the parity flag.
* **C34** Rotating by a matrix and by the corresponding quaternion agree. Real instance; first half proved, second `_refuted`.
* **C35** Quaternion rotation(from,to) aligns the vectors. Real instance with eps = 0 for the algebra.
* **C36** Conversion between parent and local coordinates is inverse. Real instance, any dimension; `_refuted` for RotBox::toLocalCoords.
* **C37** Barycenter and Midpoint are affine combinations. Real instance, any dimension and list length.
* **C38** Distance is symmetric and zero only for nearly equal points. Real instance; `_refuted` for the last clause.
* **C39** Axis box predicates are exact set predicates. Real instance equivalence with set inclusion; symmetry for any Num; binary64 equivalence with the float order.
* **C40** Intersection, Union and BoundingBox are lattice operations. Real instance; minimality against arbitrary boxes.
* **C41** Axis box corners and moves are consistent. Any Num / real instance.
* **C42** Ball predicates match Euclidean balls. Real instance with tolerance in the statement; `_refuted` for proper containment of boundary points.
* **C43** Bounding spheres contain what they bound. Real instance; Ritter loop invariant; `_refuted` for RotBox::boundingSphereSloppy.
* **C45** Rotated boxes behave like axis boxes in their own frame. Real instance, any dimension.
* **C46** Separating tests for rotated boxes never report a false separation. Real instance: soundness of each separating axis; completeness as far as it can be proved.
* **C47** Shapes contain themselves, but not properly. Per shape; `_refuted` for balls.
* **C48** Rigid motions of shapes move all of their points. Real instance; `_refuted` for Polygon<3> quaternion rotation about a corner.
* **C49** Corner lists of lines and polygons behave like sequences. List refinement over histories; Poly2Orient over reals.
* **C50** Point-in-polygon is the even-odd rule. Model of the loop with checked iterators; parity of crossings as spec.
* **C51** Textual output reads back to the same object. Character-level model of writers and readers with an abstract exact coordinate printer; `_refuted` for Line and Polygon<3>.
* **C52** Atlas encoding decodes to the same object. Model of Atlas values as a tree; `_refuted` for RotBox orientation and appending readers.
* **C53** Factorial functions compute factorials. Exact values by computation over the whole finite range; Bernoulli numbers from their defining recurrence; `_refuted` for the 1/1620 entry.
* **C54** The miniball search keeps a valid support set. Fuelled model of the search; enclosing property from the max_excess test; geometry of the support set as far as it can be proved.
* **C55** Approximate equality of points, vectors and quaternions. binary64 for symmetry and reflexivity, reals for the bound.
* **C56** Compound assignment with the object itself. Separate model of the aliased call; `_refuted`, exact value otherwise.
* **C06** Bit-mask lemma on N; acceptance loop with fuel over the word stream; counting by an explicit bijection. Termination: the 32 bit sequences of the state satisfy linear recurrences over the two-element field; eliminating all bits but the lowest gives one recurrence of degree 32*624 with an odd number of terms, which every output bit satisfies by linearity of the tempering, so no output bit is 1 on 19999 consecutive words (`MTLive.not_all_true`), and a rejected word has the top bit of n set.
* **C10** Model the loop over a list with a choice sequence; `Permutation`; bijection between choice sequences and arrangements of distinct elements by induction on length. Termination from that of randInt(n) (C06).
* **C44** Segment predicates match the segment as a point set. Real instance, eps = 0; `_refuted` for segment/segment. In doubles: invariant of the clipping loop (the state is the rounded intersection of the intervals), error of a quotient of differences, monotonicity of rounding; for whole numbers up to 2^24 two different quotients are more than 2^-51 apart, so rounding keeps their order. Segment/ball in doubles: rounding bounds of the three products and of the perpendicular distance, then the real geometry with slack. Segment/point with epsilon: squared distance to the foot of the perpendicular times the squared length is the defect in Cauchy-Schwarz.
* **C57** Rotated boxes against balls, segments and boxes. Real instance: carry the other shape into the frame of the box and use the axis box theorems; equivalences with the point sets.
* **C58** Polygons against points, balls, boxes, rotated boxes and segments. Region and interior by the even-odd rule (`RegionSpec`, `SpaceSpec`); real instance with tolerance 0; going round the closed chain of sides; `_refuted` where the crossing bookkeeping fails.
* **C59** LogGamma and LogFactorial. Stirling's formula with an explicit remainder, Gauss's limit as the definition of Gamma; the loop is unrolled against the asymptotic series. Real arithmetic with `exp`, `log`; LogFactorial, Factorial, LogGamma and Gamma from the cutoff on again in doubles, under the contract on exp and log.
* **C60** Gaussian and Poisson. Closed forms over the reals; assertion outcomes characterised. The density and Poisson again in doubles, under a contract on the accuracy of exp and log of the C library.
* **C61** Conditional probabilities. Series and continued fractions of the model against the tail sum and the tail integral, with termination (GaussInt: the Gaussian integral; MillsProofs: the continued fraction for the normal tail by repeated integrals of the density; GaussSeries: the power series); `_refuted` for GaussianConditional within sqrt(3) standard deviations. In doubles: termination and accuracy of the series, non-termination of the continued fraction once its argument overflows.
* **C62** Two polygons in space, and boxes inside a polygon in space. Cases by the angle of the planes; `_refuted` for position, crossings, boxes.
* **C63** Seeding from the surroundings. The device, time and clock are inputs of the model, the static counter is threaded through a list of calls; distinct seeds give distinct streams because the twist and the tempering can be inverted; `_refuted` for calls at different times (a colliding pair).
* **C64** Real valued random numbers. binary64 and binary32 by Flocq's rounding theorems; monotone rounding and the values at the ends.
* **C65** Length under repeated products. Invariant on (age, squared length) for right factors of length 1; computation in binary64 and a closed form for scalars for the refutation.
* **C66** Angle, Parallel, Perpendicular. Cauchy-Schwarz with its equality case at tolerance 0; error bounds with a tolerance for vectors not too short; `_refuted` in doubles for short vectors.
* **C67** Named turns and mirrors. Coordinates of the result against the right-handed turn of the axis, for every tolerance; quaternions and Vector::rotate(axis, angle) within a bound of Rodrigues' formula.
* **C68** Rounding in vector arithmetic. B64 instance; the SpecFloat operations are transferred from Flocq to exact operation + one rounding (`RoundLib`), sums by induction on the number of terms with the factor (1 + u)^k (`RoundProofs`), then Dot, sqrMag, mag, distances, Cross, normalize and matrix products (`RoundProofs2`-`5`).
* **C69** Precision of textual output. The standard library's conversions are modelled with exact integers (`DecModel`: %g with round-to-nearest-even, and correctly rounded reading); the printed decimal is within half a unit (`DecProofs2`), 17 digits identify a double because neighbours differ by more than 2^-53 of their size, and 15 digits survive because a double is closer to its decimal than half a unit (`DecProofs3`); objects follow from the C51 lemmas.
* **C70** Rotation matrices in doubles. The product's elements are sums of products (`RoundProofs3.dots_ok`); the rows of the product are followed against the rows of the product of the exact rotations in the Euclidean norm, which an orthogonal factor keeps (`RotRound`). Renormalisation is evaluated on concrete matrices of doubles: the full statement is false, because the elimination takes any pivot above 1e-154.
* **C71** Shapes of doubles against their own points. The shift of a point into the frame of a rotated box is bounded as in C36 (`RbDouble.shift_ok`), a corner is carried out and back (`back_ok`) and compared with the absolute tolerance 60 half units; halving is exact or off by half the smallest double, and doubling is exact, so the centre of an axis box is between twice the halves of its ends (`OwnDouble.halves`); zeros stay zeros in the ends of a segment and the centre of a ball. What fails is evaluated on concrete doubles.
* **C72** Moves in doubles. One addition has a relative error of half a unit and no underflow error (`RoundLib.rnd_add_err`); by induction on the list of moves the error grows as (1+u)^k - 1 (`PropMoveDouble.walk`), the order of two coordinates is kept because rounding is monotone (`path_le`), and each shape's shift is the shift of its points. Landing at a point: two roundings, none when the two coordinates are within a factor of two (Sterbenz). Shifts and turns mixed: induction on the list of moves with the error as invariant; a turn is an isometry in exact arithmetic and adds the error bound of C36_point_matrix_double, a shift adds half a unit per coordinate (`PropMoveDouble2.history`).
* **C73** Constants. Decimal enclosures of pi (Machin's series of the standard library, alternating sums evaluated in integers), of ln 2 and ln pi (alternating series of exp(-x), with x <= 1), of the roots by squaring; both ends of each enclosure and the literal round to the same number, so by monotonicity of rounding so does the constant (`LitProofs`, `LitRound.around`).
* **C74** Model: the generator of C05-C09. Tempering and twist are injective, hence the recurrence has an inverse; two sequences agreeing on the 19937 significant bits at one place agree everywhere.

## 4. What is modelled

Paths are relative to `/repo/src/wfmath`.

| Source | Model | Modelled | Not modelled |
|---|---|---|---|
| `timestamp.h/.cpp` | `TimeModel` | all operators, constructors, accessors, `regularize` (POSIX branch, 64-bit fields) | Windows branch; `now`, `sleep` (system calls); `operator<<` of a time |
| `int_to_string.h/.cpp` | `IntStrModel` | both converters with their buffer | MSVC branch |
| `MersenneTwister.h`, `randgen.h/.cpp` | `MTModel`, `RandModel` | seeding by word, by array and from the environment, refill, tempering, all `rand*` draws, save/load as words and text | the bytes `time`, `clock` and `/dev/urandom` deliver (inputs of the model) |
| `shuffle.h` | `ShuffleModel` | `Shuffle` | the generator it calls is `MTModel` |
| `const.h/.cpp` | `ConstModel`, `LitModel` | `Equal`, `FloatMax/Min/Clamp/...`, scaled epsilon; all constants, for float and double | the other `float` instances |
| `vector.h`, `vector_funcs.h`, `vector.cpp`, `point.h`, `point_funcs.h`, `point.cpp`, `zero.h` | `VecModel`, `WrapModel` | all operations | accessor names `x()`, `y()`, `z()` |
| `rotmatrix.h`, `rotmatrix_funcs.h`, `rotmatrix.cpp` | `RotModel`, `WrapModel` | all operations, `_MatrixSetValsImpl`, `_MatrixInverseImpl`, `normalize` | |
| `quaternion.h/.cpp` | `QuatModel` | all operations | |
| `axisbox.h`, `axisbox_funcs.h`, `ball.h`, `ball_funcs.h`, `segment.h`, `segment_funcs.h`, `rotbox.h`, `rotbox_funcs.h` | `ShapeModel` | all operations | friend declarations |
| `intersect.h`, `intersect.cpp` | `IntersectModel` | every overload for points, boxes, balls, segments, rotated boxes | explicit instantiations |
| `line.h`, `line_funcs.h`, `polygon.h`, `polygon_funcs.h`, `polygon.cpp` | `PolyModel`, `PolySphereModel` | corner lists, `Poly2Orient`, `Polygon<dim>` with `addCorner`, `removeCorner`, `moveCorner`, `reduce`, motions, bounding spheres and boxes | |
| `polygon_intersect.h/.cpp` | `PolyIntersectModel`, `PolyPolyModel` | every overload | |
| `stream.h`, `stream.cpp` | `StreamModel` | writers and readers character by character | conversion of one number to and from text is an oracle with a stated contract in C51, modelled by `DecModel` in C69; other formatting state |
| (C++ standard library: `os << double`, `is >> double`, C locale) | `DecModel` | %g with a precision, correctly rounded both ways, overflow fails the stream | that libstdc++/glibc round correctly is trusted; hexadecimal input, digit grouping, other locales |
| `atlasconv.h` | `AtlasModel` | `toAtlas`, `fromAtlas` of all classes | the Atlas library itself: messages are trees; its exceptions are the outcome `Throws` |
| `miniball.h`, `miniball_funcs.h`, `wrapped_array.h` | `MiniballModel` | both searches, `push`, `slack`, `accuracy`, `BoundingSphere` | one-line getters |
| `probability.h/.cpp` | `ProbModel`, `ProbDoubleModel` | all functions | rounding in `LogGamma` below 10 and in the continued fraction (only its end is covered) |
| `error.h` | `Base` | exceptions are the outcome `Throws` | payload of `ColinearVectors`, message texts |

Memory management, copying, compiler generated members and the `float` instances are not
modelled. Threads are not used by the library.

## 5. Disagreements between the properties and the code

Each line names the theorems that record it; all witnesses are reachable through the API.

* **timestamp**: `TimeDiff(1500).milliseconds()` is 1000 (C03); equality of invalid times and arithmetic on a default constructed difference (C14).
* **vector**: `Dot(v,v)` is 0 for short nonzero vectors (C17); the 2D cross product is never negative (C19); `sloppyMag` in 3D is below the magnitude by its constant (C20); `atan2` has its arguments swapped in `polar` and `asSpherical` (C22); `Distance` of different points can be 0 (C38).
* **rotmatrix**: `rotation(from,to)` in the plane for antiparallel vectors does not throw and the matrix is not orthogonal (C23, C30); `fromQuaternion(q,false)` keeps the parity flag (C24); a matrix from a quaternion or a mirror vector is valid although its argument is not (C14). In doubles `setVals` takes a proper rotation whose corner element is tiny and marks it as a mirror (`C29_parity_double_refuted`); on a plane rotation by nearly a quarter turn, given to six digits, its averaging loop has period two and never ends (`C29_terminates_double_refuted`), so `operator>>` hangs on the text `operator<<` writes by default (`C51_matrix_double_refuted`), and a rotation in space is refused.
* **rotmatrix, normalize()**: the elimination takes any pivot above about 1e-154, so a quarter turn combined with another rotation (corner element 6e-17) is turned into a matrix that is not a rotation (a row of squared length 2.4 after twenty plain products), or the assertion that the matrix is not singular fails (C70).
* **quaternion**: `fromRotMatrix` is wrong when the trace is not positive and forgets the parity (C33); `rotate(RotMatrix)` applies the inverse (C34); `q *= q`, `q /= q` read what they have overwritten (C56); products renormalise the left operand only and set the age back to 1, so the length can go to 0 (C65); `rotation(from, to)` of two short, nearly opposite vectors is valid with length 6e-8 in doubles (C35).
* **short vectors**: two vectors of length about 1e-4 at a right angle are `Parallel`; a vector of length 2^-60 is `Perpendicular` to itself, makes a right angle with itself, and is parallel to itself with `same_dir` false (C66).
* **axisbox**: `setCorners` marks the box valid whatever the points are (C14); a flat box can be said to intersect properly (C39).
* **own points in doubles**: the tolerance of the point tests is absolute, so a rotated box of 70 by 50 with a corner at (7,7), turned by one radian, does not meet its own corners 2 and 3; a segment from (2^53,2^53) to (2^53+6,2^53+2) does not meet its own centre; the centre of the axis box of the single point 2^-1074 is 0; a ball of radius 2^-600 does not properly meet its centre because the squared radius is zero (C71).
* **moves in doubles**: moveCornerTo computes c + (p - c), so the corner need not end at p: moving the corner of [1,2] to 2^-60 puts it at 0; shifting [0,1] by 2^60 and back gives the point 0 (C72).
* **ball**: proper `Intersect(ball, point)` and `Contains(ball, box)` accept points outside, since the squared radius is enlarged (C42); `BoundingSphere` of one point fails an assertion, of no point is undefined (C43, C54); in doubles the bounding sphere of a segment or box far from the origin (2^66, one unit in the last place long) leaves an end out, because the centre is rounded to the other end (C43).
* **rotbox**: `boundingSphereSloppy` uses the squared magnitude as a length (C43); `toLocalCoords` with a matrix multiplies on the wrong side (C36).
* **intersect**: crossing segments are reported as apart, some disjoint ones as meeting, and the order of the arguments matters (C44, C47); `Contains(Segment<1>, Ball<1>)` (C44); in doubles the segment from (0, 2^-53 - 1) to (3, 1 - 3*2^-52) goes through a corner of a box and is found not to meet it (C44); in doubles the segment (0,0)-(42,56) touches the ball of radius 5 about (23,39) and is found apart (C44); in doubles the point (0,2^-13), half a segment length away from the segment (-2^-13,0)-(2^-13,0), is found to lie on it (C44); clamped dot products make the 3D box test report a box apart from its own corner (C46).
* **polygon_funcs**: `removeCorner` of a corner just added aborts, or moves a corner that stays (C49); rotating a `Polygon<3>` by a quaternion about a corner moves the corner (C48); `toParentCoords` with a quaternion turns the first axis twice (C36).
* **polygon_intersect**, plane: points on horizontal sides, polygons inside a box, touching from below, proper tests, segments through the polygon, polygons crossing, an out of range read (C58).
* **randgen**: the comment that the counter guarantees a change of time-based seeds does not hold across calls at different times; two such calls can give the same generator (C63).
* **polygon_intersect**, plane: `Contains(p, p)` is false for every polygon whose first and last corners differ, and `Intersect(p, q)` can differ from `Intersect(q, p)` (C47).
* **polygon_intersect**, space: no point is in a polygon in exact arithmetic, points far off the plane are in it otherwise; boxes cut by the plane are missed, boxes beyond it recurse for ever, and so do boxes that the line of a flat polygon meets beyond the polygon; `Contains(Point, Polygon<3>)` is always false (C58); for two polygons the position is ignored unless the planes are at right angles, crossings are never recorded when they are, flags are read unwritten, a corner after the last is read; `Contains(polygon, box)` tests another shape (C62). A polygon whose corners are all one point is never said to meet or be inside another, because the point found in the plane is marked not valid (`C62_point_refuted`).
* **stream**: `Line` and `Polygon<dim>` write separators their readers do not accept; malformed text can loop for ever (C51). The default precision of 6 does not bring coordinates back, neither do 16 digits; `FromString` ignores its precision argument (C69).
* **atlasconv**: polygons and lines are appended to and small ones refused; `RotBox` drops its orientation; malformed balls are accepted (C52).
* **miniball**: with rounding a point can stay outside the ball found (C54).
* **probability**: two wrong entries in the table (C53), seen in `LogFactorial(10)`; an assertion fails for arguments in (2,3); `LogFactorial(UINT_MAX)` (C59); `GaussianConditional` is wrong above the mean, and in doubles loops for ever where the squared distance overflows, as `PoissonConditional` does for means of 2^1023 and more (C61).

## 6. How the theorems were tested

`seeded/LOG.jsonl` has one line per edited model: the definition, the edit, the claim it breaks,
the theorems that failed and those that were tightened. Edits are made in a scratch copy. The
property files of the claims named in the line are rebuilt, with all they depend on; the whole
development is rebuilt only when nothing fails there. So `failed` lists theorems of these
properties and need not list every theorem that fails.

A line with a non-empty `tightened` is an edit that survived at first, and was killed after the
theorem named was strengthened or added. A line with `"survived": true` is an edit for which no
theorem failed. For most of the work the script did not log survivors; eight that had been left
out were entered late, from the saved outputs of the runs. Outputs of some early runs were
not kept, so survivors from those may be missing, and the share of killed edits in the log is not a measurement.
The edits were chosen by the author of the theorems, and are not a sample.

## 7. Trusted base

* Coq 8.16.1: its kernel, including the virtual machine behind `vm_compute`.
* No axiom is added by this development. `Print Assumptions` of the property theorems lists
  nothing but four axioms of the standard library:
  `ClassicalDedekindReals.sig_forall_dec`, `ClassicalDedekindReals.sig_not_dec` and
  `FunctionalExtensionality.functional_extensionality_dep` (the real numbers of the standard
  library), and `Classical_Prop.classic` (used by Flocq and Coquelicot lemmas).
  Per theorem:
  * `classic`, `functional_extensionality_dep`, `sig_forall_dec`: `C50_rule`.
  * `functional_extensionality_dep`, `sig_forall_dec`, `sig_not_dec`: `C42_box_double_refuted`, `C42_point_proper_double_refuted`, `C48_rigid`, `C65_axis_double`.
  * `functional_extensionality_dep`, `sig_forall_dec`: `C29_parity_double_refuted`, `C29_terminates_double_refuted`, `C43_segment_double_refuted`, `C44_ball_double_refuted`, `C44_box_double_refuted`, `C44_point_double_refuted`, `C51_matrix_double_refuted`, `C53_factorial_double`, `C54_rounding_refuted`, `C69_default_precision_refuted`, `C69_not_finite`, `C69_print_ties`, `C70_normalize_aborts_refuted`, `C70_normalize_refuted`, `C70_plane_refuted`, `C70_products_refuted`, `C71_ball_proper_refuted`, `C71_box_centre_refuted`, `C72_move_corner_refuted`, `C72_there_and_back_refuted`, `C73_epsilon`.
  * no axiom ("Closed under the global context"): `C01_timediff_programs_defined`, `C01_timediff_programs_exact`, `C01_timestamp_programs_defined`, `C01_timestamp_programs_exact`, `C02_add_then_subtract_recovers`, `C02_addition_is_monotone`, `C02_difference_then_add_recovers`, `C02_timediff_order_is_chronological`, `C02_timediff_validity`, `C02_timestamp_order_is_chronological`, `C02_timestamp_validity`, `C03_msec_roundtrip_partial`, `C03_msec_roundtrip_refuted`, `C04_signed_decimal`, `C04_signed_injective`, `C04_unsigned_decimal`, `C04_unsigned_injective`, `C05_bounded_safe`, `C05_empty_seed_array_undefined`, `C05_index_safe`, `C06_accepts_more_than_half`, `C06_always_returns`, `C06_every_bit_clears`, `C06_first_accepted_word`, `C06_in_range`, `C06_mask`, `C06_returns`, `C06_unbiased`, `C07_load_save`, `C07_text_identifies_state`, `C08_recurrence_after_seeding`, `C08_recurrence_from_any_state`, `C08_sequence_unique`, `C09_array_seed_nonzero`, `C09_seed_recurrence`, `C09_seeding_forgets_history`, `C09_seeds_differ`, `C10_shuffle_bijection`, `C10_shuffle_defined`, `C10_shuffle_permutes`, `C10_shuffle_terminates`, `C10_shuffle_with_generator`, `C11_equal_symmetric`, `C11_nan_never_equal`, `C13_clamp`, `C13_max`, `C13_min`, `C14_barycenter`, `C14_default_timediff_arithmetic_refuted`, `C14_equality`, `C14_matrix_of_quaternion_refuted`, `C14_mirror_matrix_refuted`, `C14_set_corners_refuted`, `C14_time_equality_refuted`, `C14_time_partial`, `C14_validity_partial`, `C17_dot_self_refuted_double`, `C19_cross2_refuted_double`, `C26_age_bound`, `C26_quaternion_age`, `C26_quaternion_quotient_age`, `C26_quaternion_to_matrix_age`, `C35_unit_double_refuted`, `C38_zero_distance_refuted`, `C39_symmetric`, `C40_empty`, `C41_set_corners_ordered`, `C43_one_point_refuted`, `C43_polygon_empty`, `C43_sloppy_contains_exact_refuted`, `C47_ball_double`, `C47_box_double`, `C49_list`, `C49_list_history`, `C50_defined`, `C50_start`, `C51_ball`, `C51_box`, `C51_coords`, `C51_coords_accepts`, `C51_line_refuted`, `C51_malformed_refuted`, `C51_point`, `C51_polygon_empty_refuted`, `C51_polygon_plane`, `C51_polygon_space_refuted`, `C51_polygon_space_text_partial`, `C51_segment`, `C51_truncated_refuted`, `C52_ball`, `C52_ball_malformed_refuted`, `C52_box_accepts`, `C52_finite`, `C52_line_accepts`, `C52_line_partial`, `C52_line_refuted`, `C52_point`, `C52_point_accepts`, `C52_polygon_accepts`, `C52_polygon_partial`, `C52_polygon_refuted`, `C52_rotbox_partial`, `C52_rotbox_refuted`, `C52_safe`, `C54_empty_refuted`, `C54_move_to_front_ends`, `C54_pivot_safe`, `C62_right_angle_crash_refuted`, `C63_later_refuted`, `C63_made`, `C63_same_instant_partial`, `C63_seed`, `C63_seed_forgets`, `C65_double_long_refuted`, `C65_double_refuted`, `C66_parallel_double_refuted`, `C66_perpendicular_double_refuted`, `C67_zero`, `C68_symmetric`, `C69_sixteen_digits_refuted`, `C71_rotbox_corner_refuted`, `C71_segment_centre_refuted`, `C74_623_not_enough`, `C74_future_determines_past`, `C74_never_stuck`, `C74_outputs_determine_future`.
  * all four: every other property theorem (503 of 655). `Print Assumptions` follows each in its file.
* Libraries: Flocq (rounding, `mag`), Coquelicot (limits, integrals), mathcomp is not used.
* The reading of the C++ source. Nothing was compiled or run: the correspondence between a
  definition and the lines it cites is by inspection. In particular the binary64 instance
  assumes that `double` expressions are evaluated one operation at a time with round to
  nearest even (no fused multiply-add, no excess precision), and the real instance says
  nothing about rounding: theorems over the reals are about the algorithm, theorems over
  binary64 (`B64`) or any `Num` are about the program.
* The oracle functions of the model (`sin`, `cos`, `atan2`, `acos`, `exp`, `log` in the
  binary64 instance; printing and scanning of one number in the stream model) are variables
  of the definitions or arguments of the theorems, never axioms.
