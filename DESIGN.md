# tcnc in Rocq: design

## Method

`/repo` is a Python 2 library (G-code generator, CAM driver, 2-D geometry, SVG
reader, Inkscape extensions).  Each modelled Python function becomes a total Gallina
function that mirrors it branch by branch; exceptions are values (`Raise e`), state is
threaded explicitly, loops are folds, structural recursion or fuelled recursion with an
explicit out-of-fuel value (and a proof that it is never reached, or a property that
says when it is).

**Numbers.**  Models are generic in a record `NumOps` (`theories/Num.v`): a carrier
and the operations Python code uses, *without laws*.  Two instances:

* `ROps` (`NumR.v`): Coq's real numbers, for statements about exact arithmetic;
* `F64Ops` (`NumF64.v`): IEEE-754 binary64 through the axiom-free
  `Coq.Floats.SpecFloat` (the arithmetic of CPython's `float`), executable.

A theorem quantified over `N : NumOps` therefore holds for IEEE doubles with no
rounding assumption.  Theorems stated over `R` say what the algorithm computes in
exact arithmetic; rounding error is out of scope for those.

**Text.**  The generator's output is a list of structured items; `render` turns it
into the character text the Python code writes.  The specification side is an
independent RS274 interpreter (`GcodeSpec.v`) that executes blocks, with its own lexer
(`GcodeLexSpec.v`).  SVG path data, transforms, styles, colours, lengths and point
lists are modelled as Python strings (lists of characters), character by character.

**Randomness, iteration order.**  `random` and the order of Python sets are oracles:
theorems hold for all of them.

**Files.**  Model files (`Gcode.v`, `Cam.v`, `Geom.v`, ...) hold only definitions with
`/repo` citations, `*Spec.v` the independent specifications, `*Proofs*.v` the lemmas,
`Props*.v` the property theorems, each with a concrete case that meets its hypotheses.
A theorem that proves a part of its property has the suffix `_partial`; one that shows
that (a part of) the property is false of the code has the suffix `_refuted`.

**Wrong programs.**  `seeded/LOG.jsonl` lists the edits of the model that were tried in
scratch copies, which theorems failed, and which theorems were tightened.


## Plan per property

Modelled source, proof method, and where the theorems are.  `partial` and what is missing or false of the code is in the last column.

| id | property | source modelled | proof | theorems in | status |
|----|----|----|----|----|----|
| C01 | Machine position follows the tracked position | cam/gcode.py | simulation between the generator and the RS274 machine, induction on the call list | PropsGcode | proved |
| C02 | Rapid moves happen only at or above the safe height | cam/gcode.py | case analysis and order laws, for R and for binary64 | PropsGcode | proved |
| C03 | tool_up is unconditional | cam/gcode.py | symbolic execution of one call in an arbitrary state | PropsGcode | proved |
| C04 | Repeating a motion command emits nothing | cam/gcode.py | symbolic execution of one call in an arbitrary state | PropsGcode | proved |
| C05 | Suppressed motion never drifts more than one tolerance | cam/gcode.py | invariant with the last requested position as ghost state | PropsGcode | proved |
| C06 | Default feed rate selection | cam/gcode.py | symbolic execution of one call in an arbitrary state | PropsGcode, PropsGcode3 | proved |
| C07 | Machine feed rate equals the tracked feed rate | cam/gcode.py | characterisation of what is written, refutation by a witness history | PropsGcode | partial: False of the code: a feed-rate-only G01 is suppressed while the tracked F is updated (C07_feed_sync_refuted, witness history). Proved: sync holds for every history in which no call changes F alone. |
| C08 | Rejected calls have no effect | cam/gcode.py | symbolic execution of one call in an arbitrary state | PropsGcode | proved |
| C09 | feed_rate writes F exactly when the rate changes | cam/gcode.py | characterisation of what is written, refutation by a witness history | PropsGcode | partial: False of the code: a second feed_rate call raises TypeError (float_eq called with one argument, gcode.py 488-501). Proved: behaviour of the first call; refutation for every later one. |
| C10 | Program footer | cam/gcode.py | induction on histories | PropsGcode | proved |
| C11 | Line numbers are consecutive | cam/gcode.py | induction on histories | PropsGcode | proved |
| C12 | Comments can be switched off | cam/gcode.py | induction on histories | PropsGcode | proved |
| C13 | Output precision | cam/gcode.py | arithmetic over Z and R | PropsGcode | proved |
| C14 | normalize_axis_angle keeps the orientation and unwinds to one turn | cam/gcode.py | arithmetic over Z and R | PropsGcode | partial: Congruence modulo 2*pi proved for every angle; the one-turn range is false of the code (operator precedence at gcode.py 662), refuted with a witness. |
| C15 | wrap_angles keeps the A axis within one turn | cam/gcode.py | arithmetic over Z and R | PropsGcode | proved |
| C16 | Arcs that do not close are rejected | cam/gcode.py | characterisation of what is written, refutation by a witness history | PropsGcode | partial: False of the code: the radius check compares the I/J radius with itself, so no arc is ever rejected; refuted for every arc, witness of a bad arc written. |
| C17 | Arc words describe the requested arc | cam/gcode.py | symbolic execution of one call in an arbitrary state | PropsGcode | proved |
| C18 | Axis offsets are in machine units | cam/gcode.py | characterisation of what is written, refutation by a witness history | PropsGcode | partial: False of the code: offsets are added before unit scaling. Proved what is emitted exactly; refuted the documented meaning. |
| C19 | Preview agrees with the program | cam/gcode.py | induction on histories | PropsGcode, PropsGcode3 | proved |
| C20 | Automatic spindle ordering | cam/gcode.py | symbolic execution of one call in an arbitrary state | PropsGcode | proved |
| C21 | Emitted text can be read back | cam/gcode.py | round trip through an independent lexer, all texts | PropsGcode | partial: Holds for every history without angle normalisation; the G92 "A=" line is not readable RS274 (refuted). |
| C22 | Comments cannot change the program | cam/gcode.py | round trip through an independent lexer, all texts | PropsGcode | partial: Comments do not change the executed program for comments free of parentheses/newlines; refuted for arbitrary comment text (injection). |
| C23 | Command names are canonicalised | cam/gcode.py | symbolic execution of one call in an arbitrary state | PropsGcode | proved |
| C24 | Axis renaming only renames | cam/gcode.py | simulation between two runs | PropsGcode | proved |
| C25 | Depth stepping terminates exactly for a negative step | cam/simplecam.py | well-founded measure of the depth loop | PropsCam | proved. Over R for SimpleCAM and PaintCAM; in addition a binary64 theorem for depth 0. |
| C26 | Cutting never goes below z_depth | cam/simplecam.py | well-founded measure of the depth loop | PropsCam, PropsCam2 | proved. Heights on the machine for every number type (SimpleCAM; PaintCAM if its soft-landing height z_step and 0 are above z_depth); spacing of the passes over R. |
| C27 | The requested depth is reached | cam/simplecam.py | well-founded measure of the depth loop | PropsCam2 | partial: False of the code: the last pass stops above z_depth unless z_depth is a multiple of the step (C27_reached_refuted, depth -5 in steps of -2 ends at -4). Proved: exactly when it is reached, and by how much it is missed otherwise. |
| C28 | Sorting tool paths by position is a sorted permutation | cam/simplecam.py | Permutation and sortedness, induction on the list | PropsCam2, PropsCam5 | proved. Permutation for every number type; order and stability over R; also flip and unknown methods. |
| C29 | Path optimisation loses no path | cam/simplecam.py | Permutation and sortedness, induction on the list | PropsCam2, PropsCam5 | partial: False of the code for every input: optimize raises or loses at least one path (C29_optimize_refuted). Proved: what it returns are given paths. |
| C30 | A whole job is safe | cam/simplecam.py | induction on the paths and passes of a job, then on the calls | PropsCam2 | proved. For every number type with the order laws (R and binary64), whatever the outcome of the job; program shape and final height for completed jobs. |
| C31 | The tool visits the path | cam/simplecam.py | induction on the paths and passes of a job, then on the calls | PropsCam3, PropsTour | partial: Route proved for every number type. Arcs: proved over R when tolerance*sqrt2 < EPS; with equal tolerances, as the command line sets them, refuted in binary64 (an arc is cut as a line). |
| C32 | Corner splitting is a partition | cam/util.py | induction on the path | PropsCam3 | partial: Partition and cutting rule proved in terms of tangent angles. A tangent-continuous joint heading in direction -X is cut (C32_tangent_joint_refuted); elsewhere angle and direction agree. |
| C33 | Angle normalisation | geom/util.py | real algebra and trigonometry | PropsGeom | proved |
| C34 | Affine transforms compose | geom/transform2d.py | real algebra and trigonometry | PropsGeom | proved |
| C35 | Line intersection is on both lines | geom/line.py | real algebra and trigonometry | PropsGeom | proved |
| C36 | Parallel offset and extension of a line | geom/line.py | real algebra and trigonometry | PropsGeom | proved |
| C37 | same_side decides the side | geom/line.py | real algebra and trigonometry | PropsGeom | partial: False of the code: same_side tests the first point twice (line.py 526). Refuted with a witness; proved exactly what it decides (C37_same_side_partial), that a False answer is right, and that which_side is right. |
| C38 | Point in triangle | geom/point.py | real algebra and trigonometry | PropsGeom | partial: False of the code: the sign of one barycentric coordinate is wrong. Proved: no strictly interior point is ever accepted, some outside points are; the exact accepted region is characterised. |
| C39 | Point arithmetic | geom/point.py | real algebra and trigonometry | PropsGeom, PropsGeom3 | partial: All identities proved except bisector, which may point away from the angle (C39_bisector_refuted); distance_to_line is signed. |
| C40 | Equality and hashing of points agree | geom/point.py | real algebra, counterexamples also in binary64 | PropsGeom | partial: Reflexive and symmetric; equality means distance below EPSILON. Transitivity and equal-implies-equal-hash are refuted (over R and over binary64). |
| C41 | Box algebra and clipping | geom/box.py | real algebra and trigonometry | PropsGeom | proved |
| C42 | Arc points lie on the circle | geom/arc.py | real algebra and trigonometry | PropsGeom, PropsGeom2 | proved. point_at, reversed, offset, tangents, and the automatic centre for sweeps up to half a turn; the automatic centre is on the wrong side for larger sweeps (C42_center_large_sweep_refuted). |
| C43 | Arc subdivision splits the arc | geom/arc.py | real algebra and trigonometry | PropsGeom, PropsGeom2 | partial: Counter-clockwise arcs are split correctly; clockwise arcs are never split (refuted for every clockwise arc). |
| C44 | Circle intersections | geom/arc.py, geom/ellipse.py | real algebra and trigonometry | PropsEllipse, PropsGeom | partial: Line/arc: sound, complete, tangent and empty cases proved. Circle/circle: exactly the common points are returned unless the circles touch from outside or are concentric (C44_circles_complete); the tangent point is wrong for unequal radii (refuted), right for equal radii. |
| C45 | Bezier subdivision and evaluation | geom/bezier.py | polynomial identities, calculus over R | PropsBezier | proved. Over R; within EPSILON of the ends point_at returns the end points. |
| C46 | Bezier reversal | geom/bezier.py | polynomial identities, calculus over R | PropsBezier | partial: False of the code: reversed() swaps an end point with a control point. Proved: it reverses exactly the curves whose first control point is the start point. |
| C47 | Polygon measures | geom/polygon.py | induction on the vertex list | PropsInk4, PropsPoly | partial: Rotation, reversal, translation, triangles and the centroid are proved. The area has the opposite sign of the documented one (refuted); the bounding box is right only if some coordinate on each axis is positive (refuted for all-negative abscissas). |
| C48 | Convex hull | geom/polygon.py | induction on the vertex list | PropsPoly | proved. For inputs whose distinct points are at least EPSILON apart (the code compares points with tolerance). |
| C49 | Polyline simplification | geom/polygon.py | induction on the vertex list | PropsPoly | partial: Proved for every tolerance >= 0. A negative tolerance recurses forever on collinear points (refuted). |
| C50 | Planar graph bookkeeping | geom/planargraph.py | invariants of graph histories, all choice oracles | PropsGraph | proved. For every vertex type with decidable equality, all histories (including calls that raise). Points closer than EPSILON but different are outside the model. |
| C51 | Culling open edges gives the largest graph without dead ends | geom/planargraph.py | invariants of graph histories, all choice oracles | PropsGraph | proved. All graphs, all iteration orders; the result is the largest subgraph without dead ends. |
| C52 | Path building uses every edge exactly once | geom/planargraph.py | invariants of graph histories, all choice oracles | PropsGraph | proved. All four strategies and every random stream. |
| C53 | SVG path parsing follows the path grammar semantics | svg/svg.py | refinement to a reference reader of the path grammar, induction on text | PropsSvg | proved. For every number type; all spellings, implicit repetition, relative and absolute commands (paths without S and T; those are C54). |
| C54 | Smooth curve shorthand | svg/svg.py | refinement to a reference reader of the path grammar, induction on text | PropsSvg | partial: Proved for S directly after C and T directly after Q (every number type). False in general: after another command the current point is not used, and a chain of S uses the wrong control point (refuted). |
| C55 | Path tokenizer | svg/svg.py | refinement to a reference reader of the path grammar, induction on text | PropsSvg | partial: Proved for every list of items written with separators, or without where a sign, a letter or a second point separates; for every string no character is lost. Refuted: the legal spelling 1e5.5 of two numbers is read as one. |
| C56 | parse_path raises no exceptions | svg/svg.py | refinement to a reference reader of the path grammar, induction on text | PropsSvg | partial: False of the code: malformed numbers and arc flags raise ValueError (refuted). Proved: nothing else is ever raised, and nothing at all on well formed numbers without arcs. |
| C57 | Transform attribute composition | svg/svg.py | refinement to reference matrices and a unit table | PropsSvgDoc | proved. Over R, for every spelling of the list. |
| C58 | Unit conversion | svg/svg.py | refinement to reference matrices and a unit table | PropsSvgDoc | partial: unit2uu and the inverse law for text are proved over R; mm, cm and m are within 3e-8 of the true factor. Refuted: uu2unit raises TypeError on every number although documented for floats; a blank after the unit makes it ignored. |
| C59 | Inline style round trip | svg/css.py | string induction; case analysis over the colour spellings | PropsCss | proved. For every style whose names and values can be written (no colon, semicolon or surrounding blanks); exactly which texts raise is C59_raises_iff. A legal style with blanks after the last semicolon raises (C59_blank_refuted). |
| C60 | CSS colours stay in range | svg/css.py | string induction; case analysis over the colour spellings | PropsCss | partial: Hex, named and rgb() colours are proved over all spellings. False: an infinite percentage raises OverflowError, and #-f-f-f is accepted with a negative channel (refuted). |
| C61 | Shuffling paths keeps the paths | pathshuffler.py | permutation over a choice oracle | PropsShuffle | proved. Every document and every random stream; every order is possible. The option shuffle=False is ignored when exploding (C61_shuffle_off_refuted). |
| C62 | Ellipse parametrisation | geom/ellipse.py | real algebra and trigonometry | PropsEllipse, PropsGeom | proved. Over R: the constructor orders the axes, makes them non-negative and keeps the curve (C62_new_same_curve). |
| C63 | Elliptical arcs from SVG end points | geom/ellipse.py | real algebra and trigonometry | PropsGeom | partial: End points are on an ellipse rotated by -phi instead of phi (refuted for phi), and the sweep/large flags collapse to two arcs (refuted). |
| C64 | The tangential tool follows the path | cam/simplecam.py, cam/util.py | induction on the paths and passes of a job, then on the calls | PropsCam4, PropsCam5 | partial: Proved over R for every completed SimpleCAM job; on arcs of less than half a turn the tool turns by the sweep. Refuted for sweeps above half a turn: the tool turns the other way (C64_large_arc_refuted). |
| C65 | A job on ordinary paths completes | cam/gcode.py, cam/simplecam.py | induction on the paths and passes of a job, then on the calls | PropsCam3 | proved. Over R. |
| C66 | Flatness bounds the distance to the chord | geom/bezier.py | polynomial identities, calculus over R | PropsBezier | proved. Over R. |
| C67 | Bezier extrema | geom/bezier.py | polynomial identities, calculus over R | PropsBezier | partial: Sound and complete where defined; raises ZeroDivisionError exactly when a cubic coefficient vanishes, e.g. for every raised quadratic (refuted). |
| C68 | Bezier arc length | geom/bezier.py | polynomial identities, calculus over R | PropsBezier | proved. Over R; the arc-length cache is not modelled. |
| C69 | Circles and circular arcs as Bezier curves | geom/bezier.py | polynomial identities, calculus over R | PropsBezier, PropsBezier3 | proved. Over R. |
| C70 | Ellipses as Bezier curves | geom/bezier.py | polynomial identities, calculus over R | PropsBezier, PropsBezier2, PropsBezier3 | partial: Proved for sweeps from 0 to a full turn: end points, continuity, pieces, tangents at every piece end, and the distance of all inner points (C70_accuracy). False of the code for negative sweeps, for which nothing is returned (C70_negative_sweep_refuted). |
| C71 | Sine waves | geom/bezier.py | polynomial identities, calculus over R | PropsBezier, PropsBezier2 | proved. Over R: end points, smoothness at the joints, the slope of a sine at the zeros, horizontal tangents at the extremes and monotone in between (C71_shape). The distance from a true sine is not stated. |
| C72 | Smoothing keeps the vertices | geom/bezier.py | case analysis of the construction, real geometry, induction on the path | PropsBezier, PropsBezier2 | proved. End points for every number type; absence of failure and absence of corners over R, the latter for joints of lines and arcs of less than half a turn that are not already tangential or reversals. |
| C73 | Biarc approximation covers the curve | geom/bezier.py | case analysis of the construction, real geometry, induction on the path | PropsBezier | partial: Proved: termination, the pieces cover consecutive intervals of the curve, tangentially joined arcs, and every pair of arcs was within the tolerance at the sampled points unless the depth limit was reached. Pieces may be dropped where the construction gives up (closed curves vanish, refuted) and a smooth curve with a control point at the origin crashes (refuted). |
| C74 | Arc from two points and a tangent | geom/arc.py | case analysis of the construction, real geometry, induction on the path | PropsBezier | partial: Proved when ptan is ahead of p1. False otherwise, in all cases: behind p1 the arc returned does not lead to p2 (C74_behind_refuted), in line with the end points ZeroDivisionError is raised (C74_straight_refuted), at the origin None is returned (C74_origin_refuted). |
| C75 | Point in polygon | geom/polygon.py | induction on the vertex list | PropsPoly | proved. Over R; correctness for strictly convex polygons, invariances for all. |
| C76 | Clipping a segment with a polygon | geom/polygon.py | induction on the vertex list | PropsPoly | partial: Proved: results are parts of the line, untouched lines. A line through two corners of a square is lost (refuted). |
| C77 | Lowest graph vertex | geom/planargraph.py | invariants of graph histories, all choice oracles | PropsGraph | partial: Proved for insertion histories and after cull_open_edges. False in general: stale after remove_edge (C77_stale_after_removal_refuted); after culling to nothing the next add_edge raises AttributeError (C77_raise_refuted). |
| C78 | Face polygons | geom/planargraph.py | invariants of graph histories, all choice oracles | PropsGraph | proved. Termination for every graph; exact cover of the sides for graphs without dead ends. With dead ends a face may be returned twice (C78_dead_end_refuted). |
| C79 | Boundary polygon | geom/planargraph.py | invariants of graph histories, all choice oracles | PropsGraph, PropsGraph2 | partial: False of the code: cut short when the boundary visits a vertex twice (C79_closed_refuted), TypeError on a dangling path at the bottom (C79_dangling_refuted). Proved for graphs without dead ends: a walk along edges obeying the turn rule, closed if it needs fewer steps than there are nodes. |
| C80 | Boundary peeling | geom/planargraph.py | invariants of graph histories, all choice oracles | PropsGraph | proved. All reachable graphs and polygons. |
| C81 | Longest paths | geom/planargraph.py | invariants of graph histories, all choice oracles | PropsGraph | proved. Non-empty graphs (an empty graph raises: C81_empty_raises). |
| C82 | Parsed paths are canonical | svg/svg.py | refinement to a reference reader of the path grammar, induction on text | PropsSvg | proved. Every string, every number type. |
| C83 | Exploding a path keeps its segments | svg/svg.py | refinement to a reference reader of the path grammar, induction on text | PropsSvg | proved. Every number type. |
| C84 | Transform attribute round trip | svg/svg.py | refinement to reference matrices and a unit table | PropsSvgDoc | proved. Over R. |
| C85 | Element transforms compose up the tree | svg/svg.py | refinement to reference matrices and a unit table | PropsSvgDoc | proved. Over R; chains of ancestors are given as the list of their attributes. |
| C86 | View scale | svg/svg.py | refinement to reference matrices and a unit table | PropsSvgDoc | partial: Right for viewBoxes at the origin; a viewBox elsewhere gives a wrong scale because the width is computed as x2 - x1 of (min-x, min-y, width, height) (refuted). |
| C87 | Colour normalisation | svg/css.py | string induction; case analysis over the colour spellings | PropsCss | partial: Hex and named colours and integer grays 0-255 are proved. False: rgb() text raises TypeError; numbers outside 0-255 are not colours (refuted). |
| C88 | Node visibility | svg/svg.py | induction on the document tree | PropsCss | proved. All ancestor chains. |
| C89 | Shuffled paths stay where they are | pathshuffler.py | permutation over a choice oracle | PropsShuffle | partial: Exploded pieces keep their place up to the six decimals of the attribute. False for paths that are only moved: the transforms of their ancestors are lost (refuted). |
| C90 | Trailing tool follows the path | cam/offset.py | case analysis of the construction, real geometry, induction on the path | PropsOffset | partial: Proved exactly (over R) for every connected path of proper segments whose end points are apart. False for full circles, which are dropped (C90_full_circle_dropped_refuted). |
| C91 | Offset paths have no gaps | cam/offset.py | case analysis of the construction, real geometry, induction on the path | PropsOffset | proved. Over R. |
| C92 | Smoothing an offset path keeps the rotation continuous | cam/offset.py | case analysis of the construction, real geometry, induction on the path | PropsOffset | partial: The turning and the end points are proved for every path; that the replacing biarcs form an unbroken chain is C73 (pieces on which biarc_approximation gives up are missing). |
| C93 | Fillet between two lines | geom/fillet.py | case analysis of the construction, real geometry, induction on the path | PropsFillet | proved. Over R, for every pair of lines and every radius of at least EPSILON. |
| C94 | Rounding a path keeps it connected | cam/fillet.py, geom/fillet.py | case analysis of the construction, real geometry, induction on the path | PropsFillet | proved. Connectedness for every line/arc path; that the result consists of parts of the original for polylines. |
| C95 | Fillet between a line and an arc | geom/fillet.py | case analysis of the construction, real geometry, induction on the path | PropsFillet | partial: Line-arc corners are proved. False for an arc that also ends where the line starts: the fillet is made at the wrong corner (C95_half_disc_refuted). Arc-arc corners are proved for arcs under half a turn when only one circle on that side touches both (C95_arc_then_arc_partial); what the fillet leaves of the two segments is C95_shortened_partial (pieces under half a turn). |
| C96 | Fillets keep the tool rotation | cam/fillet.py | case analysis of the construction, real geometry, induction on the path | PropsFillet | partial: Hints are proved. The ignore_g1 mark of a shortened segment is lost (C96_mark_lost_refuted); arcs cut at half a turn or more from their start are excluded. |
| C97 | Preprocessing keeps drawing paths whole | cam/simplecam.py | induction on the path | PropsPreprocess | partial: Missing: connectedness with path_preserve_g1 on (C92) and of curves on which biarc_approximation leaves out pieces (C73). False: a drawing with a tiny segment between two corners stops the job with IndexError (C97_tiny_piece_refuted). |
| C98 | Generator settings take effect | cam/gcode.py | symbolic execution of one call in an arbitrary state | PropsGcode2 | proved. Any number type. |
| C99 | Plunging | cam/gcode.py | symbolic execution of one call in an arbitrary state | PropsGcode2 | proved. For the default plunge sequence (no alternative tool-down G-code) and every tolerance that the difference of equal values does not exceed. |
| C100 | Program header | cam/gcode.py | symbolic execution of one call in an arbitrary state | PropsGcode2 | partial: Proved for the first header of a generator. False for a second one: it stops with TypeError (C100_second_header_refuted). |
| C101 | Distance to an arc | geom/arc.py | real algebra and trigonometry | PropsGeom2 | partial: Proved for arcs of less than a full turn, not closer than the tolerance to (but possibly exactly) half a turn. False for full circles, which are treated as their start point (C101_full_circle_refuted). |
| C102 | Transforming an arc | geom/arc.py | real algebra and trigonometry | PropsGeom2 | partial: Proved for rotations, axis mirrorings and translations of arcs of at most half a turn. False for scaling (C102_scale_refuted), mirroring at the diagonal (C102_mirror_refuted) and arcs of more than half a turn, even by the identity (C102_major_refuted). |
| C103 | Arc from its centre | geom/arc.py | real algebra and trigonometry | PropsGeom2 | partial: Proved for the small arc. False for the large one (C103_large_refuted). |
| C104 | Points on an arc | geom/arc.py | real algebra and trigonometry | PropsGeom2 | partial: Proved up to half a turn. False for half a turn (C104_half_turn_refuted) and for the end points of longer arcs (C104_major_end_refuted). |
| C105 | Measures of an arc | geom/arc.py | real algebra and trigonometry | PropsGeom2 | partial: The height is wrong for arcs of more than half a turn (C105_height_major_refuted); mu is proved up to half a turn. |
| C106 | Line and box predicates | geom/box.py, geom/line.py | real algebra and trigonometry | PropsGeom2 | partial: False: a box rotated by Box.transform can lose points (C106_box_rotate_refuted). |
| C107 | Reversing a path | geom/util.py | induction on the path | PropsGeom2 | proved. For segments of positive length. |
| C108 | Tangential joints | geom/util.py | real algebra and trigonometry | PropsGeom2 | partial: Soundness is proved. False: a line and an arc that meet in the direction of the negative x axis are refused (C108_leftwards_refuted). |
| C109 | Tangents and normals of a curve | geom/bezier.py | polynomial identities, calculus over R | PropsBezier2 | partial: False for a straight curve with both control points at its start: the tangent returned is the zero vector (C109_straight_refuted). Everything else is proved. |
| C110 | Inflections | geom/bezier.py | polynomial identities, calculus over R | PropsBezier2 | partial: Proved for curves whose bending is a quadratic or constant function of the parameter and for symmetric ones. False if it is linear: the inflection is missed (C110_linear_refuted). With imaginary set, the numbers returned for a curve without inflections are only bounded. |
| C111 | Angles on an ellipse | geom/ellipse.py | real algebra and trigonometry | PropsEllipse | partial: False: the parameter can be negative for an angle between 0 and a full turn (C111_range_refuted). Everything else is proved. |
| C112 | Inside an ellipse | geom/ellipse.py | real algebra and trigonometry | PropsEllipse | partial: False for a flat ellipse: ZeroDivisionError (C112_flat_refuted). Tilts that are not zero but smaller than the tolerance are left out. |
| C113 | Measures of an ellipse | geom/ellipse.py | real algebra and trigonometry | PropsEllipse | partial: Curvature: proved for points given relative to the centre and the axes; false for points of the ellipse in page coordinates (C113_curvature_refuted). |
| C114 | Elliptical arc from its centre | geom/ellipse.py | real algebra and trigonometry | PropsEllipse | partial: Proved without tilt. False with it: the tilt is not applied (C114_tilt_refuted). |
| C115 | Ellipse in a parallelogram | geom/ellipse.py | real algebra and trigonometry | PropsEllipse | partial: Proved for rhombi with the default eccentricity. False for rectangles: the ellipse sticks out (C115_rectangle_refuted). |
| C116 | Closed polygons and integer polygons | geom/polygon.py | induction on the vertex list | PropsPoly2 | proved. Over R. |
| C117 | Path strategies | geom/planargraph.py | invariants of graph histories, all choice oracles | PropsGraph2 | proved. All four strategies and every random stream, for every geometry whose angle comparison is an order (integer points: zgeo_turns; the angle2 model over the reals: rgeo_turns). |
| C118 | Brush strokes | cam/paintcam.py | induction over the strokes, composition with the route of a job | PropsBrush | partial: Proved for all strokes that complete (C118_stroke, C118_paths, C118_completes). False of the code: UnboundLocalError for a soft lift-off after no overshoot (C118_no_overshoot_refuted); with brush reloading enabled no job completes, as the path counter it reads does not exist (C118_reload_refuted). |
| C119 | Travel of the tool | cam/simplecam.py | induction on the paths and passes of a job, then on the calls | PropsTravel | proved. Unsorted jobs from the first path on; with path_tool_fillet, path_tool_offset and path_smooth_fillet off, as in the model of preprocessing used for whole jobs. |
| C120 | Path data becomes geometry | svg/geomsvg.py | refinement to a reference drawing semantics | PropsGeomSvg | partial: Proved for every drawing whose arcs are circular, short way round and neither tiny nor half a circle (the other arcs: see C121); as C54_smooth, smooth commands only after their own kind. |
| C121 | Arc commands | svg/geomsvg.py | refinement to a reference drawing semantics | PropsGeomSvg | partial: Proved for circular arcs the short way round (C121_circular_partial) and for zero radii. False of the code: the large flag takes the other part of the circle, too small radii are kept, half circles ignore the flags, coinciding end points raise, elliptical arcs with equal flags vanish, the rotation is taken as radians. |
| C122 | Basic shapes | svg/geomsvg.py | refinement to a reference drawing semantics | PropsGeomSvg2 | partial: Proved for rect, circle, ellipse and polyline. False of the code: polygons raise TypeError or stay open, a line is returned without its list and cannot be placed, units are refused, point lists must be written with commas. |
| C123 | Placement of shapes | svg/geomsvg.py | refinement to a reference drawing semantics | PropsGeomSvg2 | partial: Proved for lines, curves and, under rigid motions, arcs up to half a turn (arcs under other maps: C102); False: an element without a transform of its own below a parent transform raises, closed curves are lost. |
| C124 | Shapes of a drawing | inkscape/inkext.py, inkscape/inksvg.py, svg/svg.py | induction on the document tree | PropsInk, PropsInk2, PropsInk3 | partial: Proved for documents of elements whose uses end somewhere (C124_every_picture). False of the code: a comment in the document raises, a use that refers to a group around itself recurses for ever, a visible child of a hidden group is left out, the display attribute is ignored, an ordinary group with a label counts as a layer, the contents of symbols are never found. |
| C125 | Clip rectangle from margins | inkscape/inksvg.py | induction on the document tree | PropsInk2 | partial: Proved with the first number at the end of larger y, the third at y = 0 (C125_margins). In SVG coordinates, in which y grows downwards, that swaps top and bottom (C125_svg_top_refuted). |
| C126 | Finding and creating layers | inkscape/inksvg.py | induction on the document tree | PropsInk3, PropsInk4, PropsInkFlip | partial: All proved for layers that were in the document. False: a layer just created by create_layer is not found again, a second call creates a second one (C126_again_refuted). With flipy, h is exact for heights of at most six digits, otherwise rounded to six (C126_flip_exact_refuted: A4 is flipped about 1122.52 instead of 1122.51969). |
| C127 | Layers of a document | inkscape/inksvg.py | induction on the document tree | PropsInk3 | proved. get_parent_layer: for documents without layers inside layers exactly the layer of the node; with nested ones the outermost is returned (C127_sublayers). |
| C128 | Output file name | cam/output.py | induction on directory listings and path texts | PropsOutput, PropsOutput2 | partial: Proved for paths without . and .. components, and for series of four digit numbers the highest of which is listed last and below 9999. False of the code: the listing is not sorted, so that existing files can be overwritten; the same after 9999; other numbers garble the name or raise UnboundLocalError; the default directory and name are never used. |
| C129 | From the drawing to the program | inkscape/inkext.py, tcnc.py | composition of reader, preprocessing, CAM and generator theorems | PropsTcnc, PropsTcnc3, PropsTour | partial: Proved for rects, polylines and paths of straight lines, with the tangent tool, fillets, smoothing, brush extras and sorting switched off (the parts themselves: C43-C48, C92-C97, C118, C120-C124). |
| C130 | One XY move for each call | cam/gcode.py | induction on the paths and passes of a job, then on the calls | PropsMotion | proved |
| C131 | Units of the program | cam/gcode.py, tcnc.py | composition of reader, preprocessing, CAM and generator theorems | PropsTcnc2 | partial: Proved for the choice of units and for all lengths of the drawing. False of the code: the safe height, given in machine units, is taken as user units (C131_safe_height, C131_safe_height_refuted); documents in units that are neither raise NameError. A millimetre is 3.543307 user units, which is accurate to a ten millionth. |
| C132 | Options of the machine | tcnc.py | composition of reader, preprocessing, CAM and generator theorems | PropsTcnc2, PropsTcnc3 | partial: Proved: C132_settings, C132_header, C132_spindle_path. False of the code: mode start never starts the spindle, the edge turns at a quarter of the feed rate, a tool of width 0 raises, the tool wait is a thousandth of that given, skip_path_count has no effect. |
| C133 | Values of options | inkscape/inkext.py, svg/svg.py | composition of reader, preprocessing, CAM and generator theorems | PropsOption | partial: Proved for all values that are given (C133_bool, C133_numbers). False of the code: defaults are not converted, without a file argument lengths raise AttributeError, in documents in km they raise KeyError. |
| C134 | Page of the document | inkscape/inksvg.py, svg/svg.py | composition of reader, preprocessing, CAM and generator theorems | PropsOption | partial: Proved for viewBoxes that start at 0,0 and have the shape of the page, and without a viewBox. False of the code: other origins give a wrong height, documents without a namedview element or without a size raise. |
| C135 | Tool options of a drawing | cam/paintcam.py, tcnc.py | induction over the strokes, composition with the route of a job | PropsTcnc3 | partial: Proved for drawings of straight lines without sorting and fillets (C135_brush, C135_tip, C135_tangent_only). False of the code: with overshoot or soft landing a stroke that shrinks to a point stops the job with IndexError and nothing is written (C135_point_refuted). |
| C136 | Written paths are read back | svg/geomsvg.py, svg/svg.py | refinement to the reference reader of path data, induction on the path | PropsSvgOut | partial: C136_commands_partial covers all paths whose arcs are at most half a turn; C136_read_back lines and curves (a rounded arc has no unique centre, so no bound is stated for points on arcs). False of the code for longer arcs: the large-arc flag is always 0 (C136_large_arc_refuted). A path with an elliptical arc raises TypeError in the model and is not part of the claim. |
| C137 | Other SVG writers | svg/svg.py | refinement to the reference reader of path data, induction on the path | PropsSvgOut | proved. Over R. |
| C138 | Segments as SVG text | geom/arc.py, geom/bezier.py, geom/line.py | refinement to the reference reader of path data, induction on the path | PropsSvgOut | partial: False of the code for arcs of more than half a turn, which are written as the short arc (C138_arc_svg_path_refuted); proved for lines, curves and other arcs. |
| C139 | Preview of the tool path | cam/gcodesvg.py | induction over the calls, marks and outline lines; real geometry of arcs | PropsPreview, PropsPreview2, PropsPreview4 | partial: Proved for all programs without tool marks (C139_program) and with them where the angle is known (C139_total_toolmarks), over R. False of the code before X and Y are known (C139_unplaced_refuted: TypeError); tool_up/tool_down replaced by custom commands are outside C139_program. |
| C140 | Arcs of the preview | cam/gcodesvg.py, svg/svg.py | induction over the calls, marks and outline lines; real geometry of arcs | PropsPreview2 | partial: Proved for arcs of less than half a turn. False of the code for longer arcs (drawn on the other side of the chord) and full circles (drawn as nothing). |
| C141 | Tool marks of the preview | cam/gcodesvg.py | induction over the calls, marks and outline lines; real geometry of arcs | PropsPreview, PropsPreview4 | partial: Over R, for at most 1/EPSILON steps (beyond that the loop adds marks past the end) and wherever the arc data agree. False of the code for an interval of zero (ZeroDivisionError) and after normalize_axis_angle, which the plotter is not told of (marks spin by at least a turn). |
| C142 | Outline of the tool marks | cam/gcodesvg.py | induction over the calls, marks and outline lines; real geometry of arcs | PropsPreview3, PropsPreview4 | partial: C142_chain covers the removal of loops for all runs; C142_reversals the removal of reversals, for all runs in which every spike is overtaken again (or is at the very end): the side stays unbroken, from the first mark to the last, and has no other corners. False of the code: a spike that is never overtaken breaks the side (C142_unfinished_refuted), a closed side collapses to a point, marks that all coincide raise IndexError, without tool marks no outline is drawn. |
| C143 | Position of grid lines | lines.py | induction over the generation loop; real geometry of clipping; permutations | PropsLines2 | partial: Proved for horizontal and vertical sets with constant spacing (C143_horizontal, C143_vertical) and, for all settings, that nothing lies outside the rectangle. False of the code: rotated lines rise by sin a instead of tan a, and the inverted variable spacing, on by default for vertical lines, puts all lines 1/10 apart. |
| C144 | Order and direction of grid lines | lines.py | induction over the generation loop; real geometry of clipping; permutations | PropsLines | proved. Jitter, random lines and the shuffling itself enter as arbitrary permutations and numbers. |
| C145 | Connected grid lines | lines.py | induction over the generation loop; real geometry of clipping; permutations | PropsLines, PropsLines2 | proved |
| C146 | Grid generation ends | lines.py | induction over the generation loop; real geometry of clipping; permutations | PropsLines2 | partial: Proved for positive spacings. False of the code for a spacing of 0, which loops for ever. |
| C147 | Tiles of a quasi-periodic tiling | geom/quasi.py | case analysis of the connection types over R; induction over the rings; trigonometry of the directions | PropsQuasi, PropsQuasi2 | partial: Over R. False of the code for the vertex types: acute and obtuse ignore the angle of the tile (C147_vertex_acute_refuted). |
| C148 | Crossings of a quasi-periodic tiling | geom/quasi.py | case analysis of the connection types over R; induction over the rings; trigonometry of the directions | PropsQuasi2 | partial: Over R. False in exact arithmetic for every even symmetry: opposite directions have equal slopes and a division by zero is raised (in floating point it depends on rounding). |
| C149 | Direct commands | cam/gcode.py | unfolding of one call, induction over the parameters | PropsGcode4 | proved. For the parameter letters X Y Z I J R A F (the others are never transformed and not modelled). |
| C150 | Simplified polylines before smoothing | polysmooth.py | Loop over the path with the pending polyline, over the simplification theorem of C49. | PropsExtras | partial: Proved for paths of lines, after curves, and without lines (C150_polyline, C150_curves_first, C150_curves_only). False of the code for other mixtures: a segment after two or more lines is lost, a single line is moved behind the next curve. |
| C151 | Repeated elements | repeater.py | The matrix of a copy is the composition of the matrix of the element and a translation; the text by C84; the list of copies by induction over counts and elements. | PropsExtras | partial: The copies are moved in the coordinates of their element: proved in general (C151_copies) and, for elements that are only translated, in the coordinates of the parent (C151_straight). False of the code for scaled or turned elements. |
| C152 | Lines between two polylines | pipelines.py | Division of a line; the rounding of the number of lines by the floor function. | PropsExtras | partial: Proved for rays with a length. False of the code if a ray has none, when a division by zero is raised. |
| C153 | Rays between two polylines | pipelines.py | Stable sorting gives a sorted permutation; the bisector has length 1, so it can be extended; intersections by C35, positions along a polyline by C106. | PropsExtras2 | proved. For two paths of lines; meeting and being on a segment are up to EPSILON as in C35 and C106. |
| C154 | Counted colours | colorcount.py | Invariant of the dictionary: keys without repetition, entries equal to the number of shapes seen so far. | PropsExtras2 | proved. The order of the keys of the Python dictionary is not modelled. |
| C155 | Tool path checks | cam/toolpath.py | Induction over the path; equality of points by the distance. | PropsExtras2 | partial: Equal means nearer than EPSILON. False of the code for closed paths of fewer than three segments, and the empty path raises IndexError. |
| C156 | Lines of Voronoi edges | geom/voronoi.py | Invariant of the sweep: every edge was made by the bisector function for two different sites; algebra of the bisector. | PropsVoronoi | proved. For every exact arithmetic: reals, and rationals for the executable example. |
| C157 | Voronoi vertices | geom/voronoi.py | The invariant keeps, for each vertex, the two half edges whose crossing it is; their lines share a site, algebra. Refutation by a rational computation. | PropsVoronoi | partial: Equidistance and the ends are proved. False of the code: edges whose directions differ by less than 1e-9 count as parallel, so an obsolete event can remain in the queue; then an end lies off its line and a vertex is not nearest to its three points (shown in exact rational arithmetic). |
| C158 | Delaunay triangulation | geom/voronoi.py | Invariant of the sweep: count of edges, sites and vertices, connectivity of the sites handled so far, sides of the triangles. | PropsVoronoi | proved. For every number type, so for doubles too. |
| C159 | Every Voronoi edge once | geom/voronoi.py | Invariant of the sweep counting how often each edge is in the list of half edges and in the result. | PropsVoronoi | partial: Every Delaunay edge has its Voronoi edge and no other edges are reported; false of the code only in that an edge without end points is reported twice. |
| C160 | Voronoi computation ends | geom/voronoi.py | Measure: sites to come, events in the queue and half edges; the bound of the model is never reached. | PropsVoronoi | partial: It always ends. False of the code: an empty diagram for four points or fewer, ZeroDivisionError for points with equal x. |
| C161 | Jiggled points | geom/voronoi.py | Algebra of reals. | PropsVoronoi | partial: Size of the move proved; false of the code for coordinates that are zero, which never move. |
| C162 | Corners of a Delaunay triangle | geom/voronoi.py | By computation. | PropsVoronoi | partial: False of the code: p3 returns the second corner. |
| C163 | Drawn Voronoi edges | geom/voronoiclip.py, voronoi.py | Drawing of diagrams modelled edge by edge (clipping by the model of Line/Box clipping); parts by the line equation of the clipped segment; the refutations are exact evaluations. | PropsVoronoiExt | partial: Whatever is drawn is a part of its edge (so equidistant from two of the points), and edges that begin and end inside are drawn whole. False of the code: an edge that begins outside of the page is dropped even if it crosses it, an unbounded upright edge goes up and down, an edge without ends is a TypeError, and voronoiclip.py uses the wrong end. |
| C164 | Drawn Delaunay edges | voronoi.py | Filter by the hull test; convex hulls via half planes (C75); the notch evaluated in doubles. | PropsVoronoiExt | partial: For convex hulls proved in both directions. False of the code for others: an edge with both ends inside is drawn even if it leaves the hull in between. |
| C165 | Spherical projection | quasink.py | Real analysis: sin is increasing on [0, pi/2]. | PropsQuasink | partial: False of the code for the centre only: ZeroDivisionError. |
| C166 | Collected tiles | quasink.py | Invariants over the sequence of calls, against an inductive specification of the drawing. | PropsQuasink | partial: Tiles, segments, counts of tiles, containment in the box, circle recentring proved. False of the code: the box always reaches to positive coordinates; rectangles are not counted (the wrong table is tested) or raise KeyError, and stay in place when recentring; a clip rectangle cannot be recentred (TypeError). |
| C167 | Chains of segments | quasink.py | Invariant of the two loops (permutation up to reversal, linkedness, maximality); termination by the number of segments left. | PropsQuasink | proved. Coincidence of ends up to EPSILON, as in the code. |
| C168 | Inset tiles and scaled segments | quasink.py | Offset lines and their intersections (C36) on parallelograms; signed areas. | PropsQuasink | partial: Proved for parallelograms (all tiles before projection); for other quadrilaterals the distance to the two adjacent sides. False of the code: a segment without length cannot be scaled (ZeroDivisionError). |
| C169 | Nested offset polygons | polypath.py | Induction over the recursion depth; the Clipper operation is a parameter. | PropsQuasink | partial: The offset operation (Clipper) is a parameter. Ends if it decreases some measure; false of the code for outward offsets: the recursion has no end. |
| C170 | Offset outline | contrib/clipper.py, geom/polygon.py | Per corner: trigonometry of the two normals over R; then induction over the vertices. | PropsClipper | proved. The raw outline, before the union. Square and miter joins; round joins always fail (C173). |
| C171 | Offsetting grid | geom/polygon.py | Bounds of truncation and of the division by the resolution. | PropsClipper | proved. Exact arithmetic; closedness up to EPSILON, as in the code. |
| C172 | Area and orientation of grid polygons | contrib/clipper.py | Telescoping sum. | PropsClipper | proved |
| C173 | Every simple polygon can be offset | contrib/clipper.py, geom/polygon.py | Symbolic execution of the call down to the union, which is a parameter; loop lemmas for the duplicate removal. | PropsClipper | partial: Proved for counterclockwise polygons without repeated vertices and square or miter joins (the union is a parameter). False of the code otherwise: clockwise polygons raise TypeError (the polygons are passed as a tuple and assigned to), a repeated vertex raises IndexError, round joins raise an error at every corner that turns to the side of the offset. |
| C174 | Miter limit of polygon offsets | contrib/clipper.py, geom/polygon.py | C170, and an exact evaluation of one corner. | PropsClipper | partial: False of the code: the limit is multiplied with the resolution of the grid (10^6); proved with that limit. |
| C175 | The sine wave extension | inkscape/inksvg.py, sinewave.py, svg/svg.py | the layer is C126, the wave C71, the path C136; the added layer is found again by its identity, since no other node has it. | PropsSineWave | proved. For documents in which no layer has that name (its suffix is C125); the scaling of the style is a parameter. |
| C176 | Variable and random spacing of grid lines | lines.py | the loop is related to a series of lines by induction; the place within the cycle is characterized by an integer number of cycles, the turn by the angle and the middle. | PropsLines3 | proved. Horizontal and vertical lines (rotated ones: C143). The logarithm of the log formula and the random numbers are parameters. |
| C177 | Where the tiles of a tiling are | geom/quasi.py | the intercepts times the cosine are linear in the line number; truncation agrees with the floor where it decides. | PropsQuasi3 | proved. The order of the crossings is that of C148. |
| C178 | Paths and polygons of a drawing | polypath.py | the graph of the segments is a reachable graph whose edges are the sides (induction); then C52, C81, C80 and C50 are applied. | PropsPolyPath | partial: False of the code for the hull: a loose end at the bottom of the drawing raises (C178_hull_refuted); a drawing of points only raises too (C178_points_refuted). Everything else is proved; the quality of the outer boundary is C79. The offset polygons are C173 and the styles are not modelled. |
| C179 | General equation of a line | geom/line.py | linear algebra. | PropsLineExt | partial: False of the code: general_equation raises its result (TypeError) and intersects calls a method that does not exist (AttributeError), for all lines. Proved for the coefficients it computes. |

## What is modelled

| model | source |
|----|----|
| `Gcode` | `cam/gcode.py`: the generator with all its calls, header and footer, line numbers, comments, axis maps/scales/offsets, angle wrapping, the calls made to a preview plotter |
| `Cam` | `cam/simplecam.py` (sorting, depth passes, segment output, tool feed, rotation), `cam/paintcam.py` (brush strokes, soft landing, reload), `cam/util.py` |
| `Preprocess` | `SimpleCAM.preprocess_paths` and its helpers with fillets, offsets and smoothing |
| `Offset`, `Fillet` | `cam/offset.py`, `geom/fillet.py`, `cam/fillet.py` |
| `LineExt` | `Line.general_equation` and `Line.intersects` of `geom/line.py` |
| `Geom` | `geom/const.py`, `util.py`, `transform2d.py`, `point.py`, `line.py`, `box.py`, `arc.py` |
| `Bezier`, `Ellipse`, `Polygon`, `Graph` | `geom/bezier.py`, `ellipse.py`, `polygon.py`, `planargraph.py` |
| `Svg`, `SvgDoc`, `SvgOut`, `GeomSvg`, `Css` | `svg/svg.py` (path and transform reader, units, view box, visibility, path data writers), `svg/geomsvg.py`, `svg/css.py`, the `to_svg_path` methods |
| `Ink` | `inkscape/inksvg.py` (shape collection, layers, clip rectangle) and the context set-up |
| `Preview` | `cam/gcodesvg.py`: the drawn elements of the preview plotter, tool marks, outline |
| `Lines`, `Quasi` | `lines.py` (line sets, order, connection), `geom/quasi.py` |
| `Output`, `Shuffle`, `Tcnc` | `cam/output.py`, `pathshuffler.py`, `tcnc.py` with the option types of `inkscape/inkext.py` |
| `Extras` | `polysmooth.py`, `repeater.py`, `pipelines.py`, `colorcount.py` (geometry and counting), `cam/toolpath.py` |
| `Voronoi` | `geom/voronoi.py` |
| `ClipperOffset` | `contrib/clipper.py` (area, orientation, duplicate removal, offset outline), `offset_polygons` of `geom/polygon.py` |
| `VoronoiExt` | `voronoi.py` (the extension), `geom/voronoiclip.py` |
| `Quasink` | `quasink.py` (projection, plotter, chains, insets), nested offsets of `polypath.py` |
| `PolyPathExt` | `polypath.py`: the layers of a run (paths, longest paths, hulls) |
## What is not modelled

`geom/debug.py`, the styles, layers and sorting of `quasink.py`, the offset layer and the unused functions of `polypath.py`, the styles, markers and experimental sub-paths of
`cam/gcodesvg.py`, `inkscape/plotpath.py`, the union of polygons and the polyline offsets of `contrib/clipper.py`, `contrib/polysimplify.py`,
`optparse` itself, logging, reading and writing of files and XML (documents are trees,
directory listings are lists), and the process environment.  `sys.setrecursionlimit` and
memory are not modelled.  Python integers in geometry are numbers of the carrier.

## Trusted base

* Coq 8.16.1 kernel (`coqc`; re-checkable with `coqchk`).
* The reading of the Python source: nothing is executed here, the model is a transcription.
* The definitions in the specification files and the statements of the theorems.
* Axioms: only those of the standard library on which its real numbers rest.  No axiom is
  declared in `theories/`.  `vcheck` also lists constants of the standard library's
  sealed modules (`Rdefinitions.RbaseSymbolsImpl.*`, `RinvImpl.*`, `ssrunder.Under_rel.*`):
  those are defined, not assumed, there; `Print Assumptions` does not list them.


### Print Assumptions for each theorem

Closed under the global context (248 theorems):

`C72_open`, `C72_closed`, `C25_zero_diverges_binary64`, `C26_never_below`, `C26_never_below_paint`, `C28_sort_permutes`, `C28_other_methods`, `C28_flip`, `C29_optimize_refuted`, `C29_optimize_partial`, `C30_rapids_safe`, `C30_rapids_safe_paint`, `C30_program`, `C30_program_paint`, `C30_ends_up`, `C30_ends_up_paint`, `C31_route`, `C31_arcs_refuted_binary64`, `C29_one_band_refuted`, `C59_round_trip`, `C59_parse`, `C59_raises`, `C59_raises_iff`, `C59_blank_refuted`, `C88_visible`, `C88_no_parents`, `C60_hex6`, `C60_hex3`, `C60_channel_range`, `C60_channel_integer`, `C60_infinite_refuted`, `C60_named`, `C60_keywords`, `C60_no_other_keywords`, `C60_range_partial`, `C60_negative_refuted`, `C60_rgb`, `C87_round_trip`, `C87_normalise_partial`, `C87_rgb_refuted`, `C87_rgb_example`, `C87_gray_integer`, `C87_gray_refuted`, `C154_counts`, `C01_tracking`, `C02_rapids_safe`, `C02_rapids_safe_binary64`, `C03_tool_up_unconditional`, `C04_repeat_feed`, `C04_repeat_command`, `C05_no_drift`, `C06_default_feed`, `C07_feed_sync_refuted`, `C08_rejections`, `C09_feed_rate_partial`, `C09_feed_rate_refuted`, `C10_footer`, `C10_shift_line`, `C11_line_numbers`, `C12_comments_off`, `C12_comments_inert`, `C13_digits`, `C13_clamp`, `C17_arc_words`, `C17_arc_unknown_start`, `C18_offset_refuted`, `C19_preview`, `C20_dwell`, `C20_spindle_on_first`, `C20_spindle_off_after`, `C21_read_back_partial`, `C21_normalize_refuted`, `C22_comments_partial`, `C22_injection_refuted`, `C23_canonical`, `C24_axis_map`, `C98_position`, `C98_position_others`, `C98_axis_offset`, `C98_axis_scale`, `C98_given_unique`, `C98_map_axis`, `C98_words_named`, `C98_units`, `C98_tolerance`, `C98_spindle`, `C98_blending`, `C99_tool_down`, `C100_header_partial`, `C100_second_header_refuted`, `C06_constructor`, `C19_tool_state`, `C19_rapid_up`, `C149_pause`, `C149_dwell_text`, `C149_nonmodal`, `C149_plain`, `C40_hash_binary64_refuted`, `C50_consistent`, `C50_counts`, `C50_add_edge`, `C50_add_poly`, `C50_remove_edge`, `C51_cull`, `C51_order_independent`, `C52_paths`, `C52_longest_first`, `C52_empty_raises`, `C81_longest_paths`, `C81_empty_raises`, `C77_lowest_after_insertions_partial`, `C77_lowest_after_cull`, `C77_add_after_empty_cull_raises`, `C78_terminates`, `C78_faces`, `C79_boundary_partial`, `C80_peel`, `C50_example`, `C51_example`, `C52_example`, `C81_example`, `C77_stale_after_removal_refuted`, `C77_raise_refuted`, `C77_example`, `C78_example`, `C78_dead_end_refuted`, `C79_closed_refuted`, `C79_dangling_refuted`, `C79_star_refuted`, `C79_example`, `C80_example`, `C117_build_paths`, `C117_longest_paths`, `C79_no_dead_ends`, `C117_example`, `C79_no_dead_ends_example`, `C124_only_shapes`, `C126_find`, `C126_new_layer`, `C126_existing_layer`, `C126_suffix_text`, `C126_suffix`, `C126_again_refuted`, `C127_parent_layer`, `C127_sublayers`, `C127_visible_layers`, `C127_layer_elements`, `C127_locked`, `C124_no_selection`, `C124_default_shapes`, `C126_exponents`, `C126_no_flip`, `C144_direction`, `C145_paths`, `C145_connectors`, `C144_grid`, `C130_one_move`, `C130_only_there`, `C133_bool`, `C128_absolute`, `C128_relative`, `C128_home`, `C128_first`, `C128_next`, `C128_suffix_path`, `C128_order_refuted`, `C128_ten_thousand_refuted`, `C128_short_number_refuted`, `C128_short_name_refuted`, `C128_missing_name_refuted`, `C128_empty_refuted`, `C128_example`, `C128_unnamed`, `C128_directory_refuted`, `C128_walks_some`, `C128_walks_unique`, `C128_dotted`, `C128_two_slashes`, `C128_dotted_example`, `C128_dotted_relative`, `C128_dotted_relative_example`, `C178_paths`, `C178_longest`, `C178_layers`, `C178_hulls`, `C178_corners`, `C178_points`, `C178_nothing`, `C178_points_refuted`, `C178_hull_refuted`, `C178_example`, `C97_plain`, `C97_fillets`, `C167_ends`, `C166_drawing`, `C166_touching`, `C166_rects_refuted`, `C169_nested`, `C169_single`, `C169_ends`, `C169_endless_refuted`, `C61_permutation`, `C61_order`, `C61_any_order`, `C61_nothing`, `C61_explode`, `C61_explode_elem`, `C61_shuffle_off_refuted`, `C55_tokens_partial`, `C55_characters`, `C55_token_kinds`, `C55_exponent_point_refuted`, `C53_parse_path`, `C54_smooth_partial`, `C56_raises_refuted`, `C56_only_value_error_partial`, `C56_well_formed_numbers_partial`, `C82_canonical`, `C82_first_is_move`, `C83_explode`, `C83_no_segment_lost`, `C136_nothing`, `C132_spindle_start_refuted`, `C132_spindle_path`, `C132_skip_refuted`, `C131_units`, `C131_no_units`, `C129_skipped_layers`, `C157_ends`, `C157_on_line_refuted`, `C157_nearest_refuted`, `C158_counts`, `C158_triangles`, `C158_connected`, `C158_off`, `C159_reported_partial`, `C159_every_partial`, `C159_once_refuted`, `C160_ends`, `C160_few_refuted`, `C162_first_partial`, `C162_third_refuted`, `C157_bracket`, `C163_endless_refuted`, `C163_level_refuted`, `C164_all`, `C164_some`, `C164_notch_refuted`

`ClassicalDedekindReals.sig_forall_dec`, `FunctionalExtensionality.functional_extensionality_dep` (4 theorems):

`C13_half_ulp`, `C141_spacing`, `C131_accuracy`, `C160_vertical_exact_refuted`

`ClassicalDedekindReals.sig_forall_dec`, `ClassicalDedekindReals.sig_not_dec`, `Classical_Prop.classic`, `FunctionalExtensionality.functional_extensionality_dep` (547 theorems):

`C45_point_at`, `C45_point_at_ends`, `C45_subdivide`, `C45_subdivide_outside`, `C45_derivative1`, `C45_derivative2`, `C45_derivative3`, `C45_from_quadratic`, `C45_transform`, `C46_reversed_refuted`, `C46_reversed_not_backwards_refuted`, `C46_reversed_partial`, `C66_flatness`, `C66_line_fallback`, `C67_extrema_partial`, `C67_box`, `C67_defined`, `C67_quadratic_refuted`, `C68_length`, `C68_terminates`, `C68_fuel_irrelevant`, `C68_arc_length_exists`, `C68_converges`, `C69_circle`, `C69_arc`, `C70_ellipse_partial`, `C70_negative_sweep_refuted`, `C71_sine_wave`, `C72_total`, `C73_covers_partial`, `C73_terminates`, `C73_crash_refuted`, `C73_closed_refuted`, `C74_arc_from_tangent_partial`, `C74_behind_refuted`, `C74_straight_refuted`, `C74_origin_refuted`, `C109_tangent`, `C109_start`, `C109_end`, `C109_normal`, `C109_angles`, `C109_straight_refuted`, `C70_tangents`, `C71_shape`, `C72_no_corners_open`, `C72_no_corners_closed`, `C110_inflections_partial`, `C110_no_inflection`, `C110_symmetric`, `C110_linear_refuted`, `C70_accuracy`, `C69_arc_accuracy`, `C118_stroke`, `C118_paths`, `C118_completes`, `C118_no_overshoot_refuted`, `C118_reload_refuted`, `C118_example`, `C25_terminates`, `C25_terminates_paint`, `C25_diverges`, `C25_diverges_paint`, `C25_command_line`, `C26_passes`, `C26_passes_paint`, `C27_reached_partial`, `C27_reached_refuted`, `C28_flip_nearest`, `C28_sorted`, `C28_stable`, `C65_completes`, `C31_arcs_partial`, `C32_partition`, `C32_empty`, `C32_direction_partial`, `C32_tangent_joint_refuted`, `C64_tool_follows`, `C64_small_arc_partial`, `C64_large_arc_refuted`, `C28_flip_first`, `C64_half_turns`, `C64_half_turns_paint`, `C170_sides`, `C170_reach`, `C170_square`, `C170_reflex`, `C170_miter`, `C172_area`, `C172_empty`, `C172_orientation`, `C172_reversed`, `C172_example`, `C171_to_grid`, `C171_round_trip`, `C171_closed`, `C173_offset_partial`, `C173_zero`, `C173_clockwise`, `C173_repeated`, `C173_round`, `C173_clockwise_refuted`, `C173_repeated_refuted`, `C173_example`, `C174_limit_refuted`, `C174_limit_partial`, `C174_example`, `C170_example`, `C60_channel_percent`, `C87_gray_fraction`, `C44_circles_complete`, `C62_new_same_curve`, `C111_theta2t`, `C111_pointt`, `C111_range_refuted`, `C112_inside`, `C112_all_inside`, `C112_flat_refuted`, `C113_area`, `C113_eccentricity`, `C113_curvature_partial`, `C113_curvature_refuted`, `C114_from_center_partial`, `C114_tilt_refuted`, `C115_rhombus_partial`, `C115_rectangle_refuted`, `C150_polyline`, `C150_curves_first`, `C150_curves_only`, `C150_lost_refuted`, `C150_swapped_refuted`, `C151_copies`, `C151_straight`, `C151_scaled_refuted`, `C152_polylines`, `C152_spacing`, `C152_zero_length_refuted`, `C153_nearest`, `C153_rays`, `C155_continuous`, `C155_empty_refuted`, `C155_closed`, `C155_two_refuted`, `C93_fits`, `C93_too_short`, `C93_no_turn`, `C93_sound`, `C94_connected`, `C94_geom_connected`, `C94_polyline`, `C94_geom_polyline`, `C94_polygon`, `C94_polygon_trivial`, `C94_rounds_every_corner`, `C94_rounds_closed`, `C95_line_then_arc_partial`, `C95_arc_then_line_partial`, `C95_line_then_arc_sound_partial`, `C95_arc_then_arc_partial`, `C95_shortened_partial`, `C95_half_disc_refuted`, `C96_hints`, `C96_attributes_partial`, `C96_mark_lost_refuted`, `C02_rapids_safe_machine`, `C05_no_drift_machine`, `C07_feed_sync_partial`, `C14_normalize_partial`, `C14_normalize_refuted`, `C15_wrap_angles`, `C15_wrap_congruent`, `C16_arc_check_refuted`, `C18_offset_partial`, `C33_normalize_angle`, `C33_calc_rotation`, `C33_calc_rotation_near`, `C34_compose`, `C34_compose_assoc`, `C34_identity`, `C34_translate`, `C34_scale`, `C34_scale_about`, `C34_rotate`, `C34_skew`, `C34_canonicalize`, `C34_rotate_inverse`, `C35_intersection_on_both`, `C35_intersection_complete`, `C35_parallel_none`, `C35_is_parallel`, `C36_offset`, `C36_offset_tiny`, `C36_extend`, `C36_extend_from_midpoint`, `C36_extend_degenerate`, `C36_shift`, `C36_reversed`, `C36_flipped`, `C36_subdivide`, `C36_mu`, `C36_nearest_on_line`, `C36_nearest_on_segment`, `C36_midpoint`, `C36_bisector`, `C37_same_side_partial`, `C37_false_is_right`, `C37_same_side_refuted`, `C37_which_side`, `C38_inside_triangle_partial`, `C38_inside_triangle_refuted`, `C38_outside_accepted_refuted`, `C39_lagrange`, `C39_distance`, `C39_unit`, `C39_normals`, `C39_rotation_preserves_distance`, `C39_polar`, `C39_polar_inverse`, `C39_angle2`, `C39_distance_to_line`, `C39_bisector_partial`, `C39_bisector_refuted`, `C40_eq_reflexive_symmetric_partial`, `C40_eq_is_distance`, `C40_transitive_refuted`, `C40_hash_refuted`, `C41_box_ordered`, `C41_box_least`, `C41_from_points`, `C41_union`, `C41_intersection`, `C41_buffered`, `C41_clip`, `C41_clip_none`, `C42_point_at`, `C42_reversed`, `C42_offset`, `C42_tangents`, `C42_center`, `C42_center_large_sweep_refuted`, `C43_subdivide_ccw_partial`, `C43_subdivide_cw_refuted`, `C44_line_arc_on_both`, `C44_line_circle_complete`, `C44_line_tangent`, `C44_line_misses`, `C44_circles_two_points`, `C44_circles_tangent_equal_partial`, `C44_circles_tangent_refuted`, `C62_point_at_on_ellipse`, `C62_derivatives`, `C62_foci`, `C62_new_axes`, `C63_from_endpoints_partial`, `C63_rotation_refuted`, `C63_flags_refuted`, `C101_distance_partial`, `C101_over_arc`, `C101_beside_arc`, `C101_full_circle_refuted`, `C102_isometry_partial`, `C102_scale_refuted`, `C102_distorting`, `C102_mirror_refuted`, `C102_major_refuted`, `C103_small_partial`, `C103_large_refuted`, `C104_minor_complete_partial`, `C104_minor_sound_partial`, `C104_major`, `C104_major_end_refuted`, `C104_half_turn_refuted`, `C105_height_partial`, `C105_height_major_refuted`, `C105_areas`, `C105_length`, `C42_midpoint`, `C105_mu`, `C43_at_point_partial`, `C106_coincident`, `C106_equal`, `C106_parallel_inline`, `C106_point_on_line`, `C106_segment_points`, `C106_side_of_direction`, `C106_slope`, `C106_vertical`, `C106_from_polar`, `C106_ccw_angle`, `C106_box_center`, `C106_point_inside`, `C106_all_inside`, `C106_box_transform_partial`, `C106_box_rotate_refuted`, `C107_reversed`, `C107_unbroken`, `C108_sound`, `C108_complete_partial`, `C108_leftwards_refuted`, `C39_division`, `C39_is_zero`, `C39_orientation`, `C39_line_projection`, `C120_path_partial`, `C121_circular_partial`, `C121_zero_radius`, `C121_large_refuted`, `C121_small_radius_refuted`, `C121_half_refuted`, `C121_same_point_refuted`, `C121_ellipse_lost_refuted`, `C121_rotation_refuted`, `C122_rect`, `C122_circle`, `C122_ellipse`, `C122_polyline`, `C122_polygon_refuted`, `C122_polygon_open_refuted`, `C122_line_refuted`, `C122_points_refuted`, `C122_units_refuted`, `C123_placement_partial`, `C123_no_transform_refuted`, `C123_loop_lost_refuted`, `C123_elements`, `C124_shapes`, `C124_given_transform`, `C124_hidden`, `C124_selection`, `C124_every_picture`, `C124_comment_refuted`, `C124_use_loop_refuted`, `C124_visible_child_refuted`, `C124_display_attribute_refuted`, `C124_labelled_group_refuted`, `C124_symbol_refuted`, `C125_margins`, `C125_svg_top_refuted`, `C126_opacity`, `C47_bounding_box_range_partial`, `C126_flip`, `C126_flip_exact_refuted`, `C179_coefficients_partial`, `C179_general_equation_refuted`, `C179_intersects_refuted`, `C145_one_path`, `C143_horizontal`, `C143_vertical`, `C143_inverted_refuted`, `C143_inside`, `C143_slope`, `C143_rotated_refuted`, `C146_ends`, `C146_zero_refuted`, `C176_horizontal`, `C176_vertical`, `C176_no_jitter`, `C90_tip_follows_partial`, `C90_no_offset`, `C90_full_circle_dropped_refuted`, `C91_no_gaps`, `C91_total`, `C92_fix_G1_partial`, `C92_unmarked`, `C92_afresh`, `C133_numbers`, `C133_default_refuted`, `C133_no_document_refuted`, `C133_km_refuted`, `C134_page`, `C134_no_viewbox`, `C134_plain_svg_refuted`, `C134_no_size_refuted`, `C134_origin_refuted`, `C47_area_sign_partial`, `C47_area_refuted`, `C47_area_rotate`, `C47_area_reverse`, `C47_area_translate`, `C47_area_triangle`, `C47_centroid_translate`, `C47_centroid_defined`, `C47_centroid_triangle`, `C47_bounding_box_partial`, `C47_bounding_box_refuted`, `C48_convex_hull`, `C48_hull_encloses_hull`, `C49_simplify_partial`, `C49_flat`, `C49_negative_tolerance_refuted`, `C75_even_odd`, `C75_rotate`, `C75_reverse`, `C75_translate`, `C75_convex_inside`, `C75_convex_outside`, `C75_hull`, `C76_on_segment_partial`, `C76_diagonal_refuted`, `C76_untouched`, `C116_is_closed`, `C116_empty_raises`, `C116_round_trip`, `C116_closed`, `C116_integers`, `C97_connected_partial`, `C97_ends`, `C97_tip_follows`, `C97_tiny_piece_refuted`, `C139_path_layer`, `C139_total`, `C139_total_toolmarks`, `C139_unplaced_refuted`, `C139_program`, `C141_tool_marks`, `C141_zero_interval_refuted`, `C141_normalized_refuted`, `C139_written`, `C140_short`, `C140_long_refuted`, `C140_full_circle_refuted`, `C140_marks`, `C142_chain`, `C142_plain_partial`, `C142_single_mark_refuted`, `C142_closed_refuted`, `C142_no_marks_refuted`, `C142_reversals`, `C142_unfinished_refuted`, `C142_switched_off`, `C142_drawn`, `C142_begun`, `C139_toolmarks_start`, `C141_first_feed`, `C142_written`, `C147_tiles`, `C147_rhombus`, `C147_acute`, `C147_obtuse`, `C147_cross`, `C147_rect`, `C147_vertex_cross`, `C147_vertex_acute_partial`, `C147_vertex_obtuse_partial`, `C147_vertex_acute_refuted`, `C148_once`, `C148_odd_total`, `C148_even_refuted`, `C147_example`, `C177_tiling`, `C167_chains`, `C165_outside`, `C165_sphere`, `C165_order`, `C165_rim`, `C165_inverted`, `C165_centre_refuted`, `C166_counts`, `C166_box`, `C166_bbox`, `C166_box_refuted`, `C166_rects_twice_refuted`, `C166_rects_key_refuted`, `C166_recenter`, `C166_rects_stay_refuted`, `C166_rectangle_refuted`, `C168_corners`, `C168_inset`, `C168_thin`, `C168_scaled`, `C168_point_refuted`, `C166_place`, `C166_place_plain`, `C166_no_region`, `C166_rectangle`, `C166_circle`, `C89_exploded_partial`, `C89_moved_refuted`, `C175_sine_wave`, `C54_smooth_refuted`, `C54_chain_refuted`, `C57_transform_list`, `C57_nothing`, `C57_wrong_case`, `C57_wrong_case_arguments`, `C84_transform_attr_round_trip`, `C85_element_transform`, `C58_unit2uu`, `C58_inverse_partial`, `C58_unparsed`, `C58_number_refuted`, `C58_blank_refuted`, `C86_view_scale_partial`, `C86_no_viewbox`, `C86_origin_refuted`, `C86_aspect`, `C136_commands_partial`, `C136_read_back`, `C136_large_arc_refuted`, `C137_polygon`, `C137_line`, `C137_curve`, `C137_circular_arc`, `C137_ellipse`, `C138_line_svg_path`, `C138_curve_svg_path`, `C138_arc_svg_path_partial`, `C138_arc_svg_path_refuted`, `C129_drawing`, `C129_nothing`, `C132_edge_speed_refuted`, `C132_no_width`, `C132_tool_wait_refuted`, `C132_settings`, `C131_lengths`, `C131_safe_height`, `C131_safe_height_refuted`, `C135_brush`, `C135_point_refuted`, `C135_tip`, `C135_tangent_only`, `C132_header`, `C31_machine`, `C129_machine`, `C119_travel`, `C119_example`, `C156_exact`, `C156_bisector`, `C157_exact`, `C157_vertex`, `C160_vertical_refuted`, `C161_small`, `C161_axis_refuted`, `C163_part`, `C163_whole_partial`, `C163_upright_partial`, `C163_module_same`, `C163_equidistant`, `C163_hull_partial`, `C163_outside_refuted`, `C163_outside_example`, `C163_upright_refuted`, `C163_module_refuted`, `C164_sides`, `C164_inside`, `C164_corners`, `C164_outside`
