{"id": "C01", "title": "Machine position follows the tracked position", "statement": "For every sequence of GCodeGenerator motion calls made with a fixed configuration, executing the emitted G-code on an RS274 machine (absolute mode, modal axis words) leaves the machine, on every axis X/Y/Z/A the generator reports as known, at exactly the decimal rendering of (tracked value * axis scale + axis offset) * unit scale (degrees for A); an axis reported as unknown has never been commanded.", "quantifier": "all histories of rapid_move/feed/feed_arc/tool_up/tool_down/dwell/spindle/pause/comment/feed_rate calls, all argument values, all fixed configurations (tolerances, scales, offsets, units, precision)", "why_tests_cant": "Unchanged words are suppressed relative to state accumulated over the whole history; tests only sample a few histories.", "anchors": ["tcnc/cam/gcode.py:GCodeGenerator.gcode_command", "tcnc/cam/gcode.py:GCodeGenerator.position"]}
{"id": "C02", "title": "Rapid moves happen only at or above the safe height", "statement": "With no alternate tool-up code configured, whatever calls were made before, a rapid_move first brings the tracked Z to a value not below zsafe and the G00 block that carries X/Y/A leaves Z not below zsafe, even when the caller asks for a lower z.", "quantifier": "all call histories and arguments, all values of zsafe, all numeric types with an irreflexive asymmetric order (reals and IEEE doubles)", "why_tests_cant": "Safety must hold after every history; one bad history drags the tool through the work piece.", "anchors": ["tcnc/cam/gcode.py:GCodeGenerator.rapid_move", "tcnc/cam/gcode.py:GCodeGenerator.tool_up"]}
{"id": "C03", "title": "tool_up is unconditional", "statement": "tool_up always emits a Z word for zsafe (G00, or G01 when rapid is false) regardless of what the generator believes the current height to be, and afterwards reports Z = zsafe; no other axis is commanded.", "quantifier": "all states reachable by any history, any rapid/wait/comment argument, alt_tool_up unset", "why_tests_cant": "The redundancy filter could swallow the retract in some state; every state must be covered.", "anchors": ["tcnc/cam/gcode.py:GCodeGenerator.tool_up"]}
{"id": "C04", "title": "Repeating a motion command emits nothing", "statement": "Issuing the same feed (or the same G00/G01 command) twice in a row emits no output the second time and leaves the reported position unchanged.", "quantifier": "all states, all arguments, all numeric types in which v - v has magnitude not above the tolerance", "why_tests_cant": "The filter compares with a tolerance against history; only an all-states argument rules out double output.", "anchors": ["tcnc/cam/gcode.py:GCodeGenerator.feed", "tcnc/cam/gcode.py:GCodeGenerator.gcode_command"]}
{"id": "C05", "title": "Suppressed motion never drifts more than one tolerance", "statement": "After any history, the reported position on an axis differs from the last value requested on that axis by at most the tolerance, however many sub-tolerance moves were suppressed in a row.", "quantifier": "all histories of feeds with any number of suppressed steps, real arithmetic", "why_tests_cant": "Accumulated drift only appears on arbitrarily long histories.", "anchors": ["tcnc/cam/gcode.py:GCodeGenerator.gcode_command"]}
{"id": "C06", "title": "Default feed rate selection", "statement": "feed() without an explicit feed rate uses the XY feed rate if x or y is given, else the Z rate if z is given, else the A rate if a is given; with no axis and no feed it does nothing at all.", "quantifier": "all states and all 16 combinations of given axes with arbitrary values", "why_tests_cant": "Must hold for all values and states.", "anchors": ["tcnc/cam/gcode.py:GCodeGenerator.feed"]}
{"id": "C07", "title": "Machine feed rate equals the tracked feed rate", "statement": "After any history the modal F of the machine executing the output equals the last feed rate requested (to the output precision), so cutting moves run at the requested feed.", "quantifier": "all call histories", "why_tests_cant": "The failing histories need a feed-only change between moves; tests of single moves cannot see it.", "anchors": ["tcnc/cam/gcode.py:GCodeGenerator.gcode_command", "tcnc/cam/gcode.py:GCodeGenerator.feed"]}
{"id": "C08", "title": "Rejected calls have no effect", "statement": "A motion command with opaque params, a bad unit name, an unknown axis name or normalising a linear axis raises GCodeException, writes nothing and changes no reported value.", "quantifier": "all states and all offending arguments", "why_tests_cant": "Atomicity of failure quantifies over every state.", "anchors": ["tcnc/cam/gcode.py:GCodeGenerator.gcode_command", "tcnc/cam/gcode.py:GCodeGenerator.set_units", "tcnc/cam/gcode.py:GCodeGenerator.position", "tcnc/cam/gcode.py:GCodeGenerator.normalize_axis_angle"]}
{"id": "C09", "title": "feed_rate writes F exactly when the rate changes", "statement": "feed_rate(f) writes an F line if f differs from the last F and writes nothing otherwise.", "quantifier": "all states, all f", "why_tests_cant": "Depends on every possible prior F state.", "anchors": ["tcnc/cam/gcode.py:GCodeGenerator.feed_rate"]}
{"id": "C10", "title": "Program footer", "statement": "footer always ends the program with M2 then a % line, and emits G92.1 before them exactly when some normalize_axis_angle call in the history shifted a rotary axis.", "quantifier": "all histories", "why_tests_cant": "Whether the axis was reset depends on the entire history.", "anchors": ["tcnc/cam/gcode.py:GCodeGenerator.footer", "tcnc/cam/gcode.py:GCodeGenerator.normalize_axis_angle"]}
{"id": "C11", "title": "Line numbers are consecutive", "statement": "With line numbers on, the numbered lines of the output carry N0, N1, N2, ... without gap or repeat over the whole history, and blank and comment-only lines are never numbered; with line numbers off no line is numbered.", "quantifier": "all histories", "why_tests_cant": "A counter invariant over unbounded histories.", "anchors": ["tcnc/cam/gcode.py:GCodeGenerator._write_line"]}
{"id": "C12", "title": "Comments can be switched off", "statement": "With show_comments False no comment text reaches the output in any history, and apart from comments and blank lines the output is identical to the one with comments on.", "quantifier": "all histories, all comment strings", "why_tests_cant": "Quantifies over all histories and strings.", "anchors": ["tcnc/cam/gcode.py:GCodeGenerator.comment", "tcnc/cam/gcode.py:GCodeGenerator._write_line"]}
{"id": "C13", "title": "Output precision", "statement": "Every axis, arc and feed number word has exactly max(2, min(p, 15)) digits after the point, where p is the precision asked for, and its decimal value is within half a unit in the last place of the machine value.", "quantifier": "all integers p and all reals", "why_tests_cant": "Quantifies over all values.", "anchors": ["tcnc/cam/gcode.py:GCodeGenerator.set_output_precision"]}
{"id": "C14", "title": "normalize_axis_angle keeps the orientation and unwinds to one turn", "statement": "After normalize_axis_angle the reported angle is congruent to the old one modulo a full turn and lies in [0, 2*pi).", "quantifier": "all angles", "why_tests_cant": "All reals.", "anchors": ["tcnc/cam/gcode.py:GCodeGenerator.normalize_axis_angle"]}
{"id": "C15", "title": "wrap_angles keeps the A axis within one turn", "statement": "With wrap_angles set, every A value the generator reports as commanded after the first command has magnitude below 2*pi and is congruent to the requested angle.", "quantifier": "all histories and angles", "why_tests_cant": "Invariant over histories.", "anchors": ["tcnc/cam/gcode.py:GCodeGenerator.gcode_command"]}
{"id": "C16", "title": "Arcs that do not close are rejected", "statement": "feed_arc raises GCodeException when the end point is not at the same distance from the centre as the start point.", "quantifier": "all states and all arc arguments", "why_tests_cant": "All reals.", "anchors": ["tcnc/cam/gcode.py:GCodeGenerator.feed_arc"]}
{"id": "C17", "title": "Arc words describe the requested arc", "statement": "A feed_arc from a known position writes one G02/G03 block whose I and J words are always present and are the scaled centre offsets, and reports X/Y within tolerance of the end point; from an unknown XY position it raises TypeError and writes nothing.", "quantifier": "all states and arc arguments", "why_tests_cant": "IJ must be forced whatever the history.", "anchors": ["tcnc/cam/gcode.py:GCodeGenerator.feed_arc"]}
{"id": "C18", "title": "Axis offsets are in machine units", "statement": "set_axis_offset adds the offset in machine units (degrees for A) to every emitted axis value, after unit scaling.", "quantifier": "all offsets, scales and values", "why_tests_cant": "All reals.", "anchors": ["tcnc/cam/gcode.py:GCodeGenerator.set_axis_offset", "tcnc/cam/gcode.py:GCodeGenerator.gcode_command"]}
{"id": "C19", "title": "Preview agrees with the program", "statement": "Every motion call that returns normally notifies the plotter exactly once (after a possible tool-up event) with the end point the tool was asked to reach, unspecified axes carrying the tracked position.", "quantifier": "all histories and arguments", "why_tests_cant": "All histories.", "anchors": ["tcnc/cam/gcode.py:GCodeGenerator._endp", "tcnc/cam/gcode.py:PreviewPlotter"]}
{"id": "C20", "title": "Automatic spindle ordering", "statement": "With spindle_auto, tool_down writes the spindle-on code before any plunge and tool_up writes M5 after the retract; dwell codes appear only for positive waits, with the wait in seconds.", "quantifier": "all states and arguments", "why_tests_cant": "All states.", "anchors": ["tcnc/cam/gcode.py:GCodeGenerator.tool_down", "tcnc/cam/gcode.py:GCodeGenerator.tool_up", "tcnc/cam/gcode.py:GCodeGenerator.dwell", "tcnc/cam/gcode.py:GCodeGenerator.spindle_on"]}
{"id": "C21", "title": "Emitted text can be read back", "statement": "Reading the emitted text with an independent RS274 lexer recovers exactly the words of every block; in particular number formatting, N words and comments never run together.", "quantifier": "all histories whose comments contain no closing parenthesis or newline", "why_tests_cant": "Round trip over all values.", "anchors": ["tcnc/cam/gcode.py:GCodeGenerator._write_line", "tcnc/cam/gcode.py:GCodeGenerator.gcode_command"]}
{"id": "C22", "title": "Comments cannot change the program", "statement": "Whatever strings are passed as comments, the executable blocks of the output are those of the same calls without comments.", "quantifier": "all strings", "why_tests_cant": "All strings.", "anchors": ["tcnc/cam/gcode.py:GCodeGenerator.comment", "tcnc/cam/gcode.py:GCodeGenerator._write_line"]}
{"id": "C23", "title": "Command names are canonicalised", "statement": "'g1', 'G1' and 'G01' are the same command; canonicalisation is idempotent and leaves other commands unchanged up to case.", "quantifier": "all strings", "why_tests_cant": "All strings.", "anchors": ["tcnc/cam/gcode.py:_canonical_cmd"]}
{"id": "C24", "title": "Axis renaming only renames", "statement": "map_axis changes only the letters of the emitted words: the same history with and without the map emits the same numbers in the same order and reports the same positions.", "quantifier": "all histories, all maps", "why_tests_cant": "All histories.", "anchors": ["tcnc/cam/gcode.py:GCodeGenerator.map_axis"]}
{"id": "C25", "title": "Depth stepping terminates exactly for a negative step", "statement": "Let the step of a job be z_step, or z_depth when z_step is within the geometry tolerance of zero. generate_gcode leaves its depth loop after finitely many passes whenever that step is negative, for every depth, and never completes when it is zero or positive. With the step derived from the command line options this means: exactly when the depth option is negative.", "quantifier": "all depths and steps (reals), any number of passes", "why_tests_cant": "Termination for all parameters.", "anchors": ["tcnc/cam/simplecam.py:SimpleCAM.generate_gcode"]}
{"id": "C26", "title": "Cutting never goes below z_depth", "statement": "No depth pass is cut below z_depth, and successive passes are strictly deeper.", "quantifier": "all depths and negative steps", "why_tests_cant": "All reals, unbounded passes.", "anchors": ["tcnc/cam/simplecam.py:SimpleCAM.generate_gcode"]}
{"id": "C27", "title": "The requested depth is reached", "statement": "The last pass is cut at z_depth.", "quantifier": "all depths and negative steps", "why_tests_cant": "All reals.", "anchors": ["tcnc/cam/simplecam.py:SimpleCAM.generate_gcode"]}
{"id": "C28", "title": "Sorting tool paths by position is a sorted permutation", "statement": "sort_paths with x+/x-/y+/y- returns exactly the given paths, each once and unmodified, ordered by the named coordinate of their first point.", "quantifier": "all lists of paths", "why_tests_cant": "All lists.", "anchors": ["tcnc/cam/simplecam.py:SimpleCAM.sort_paths"]}
{"id": "C29", "title": "Path optimisation loses no path", "statement": "sort_paths with 'optimize' returns every tool path exactly once.", "quantifier": "all lists of paths", "why_tests_cant": "All lists.", "anchors": ["tcnc/cam/simplecam.py:SimpleCAM.sort_paths"]}
{"id": "C30", "title": "A whole job is safe", "statement": "During generate_gcode every rapid is at or above the safe height, every path starts with retract, rapid to its first point, then plunge, and the job ends with the tool up.", "quantifier": "all jobs (any number of paths and passes)", "why_tests_cant": "All jobs.", "anchors": ["tcnc/cam/simplecam.py:SimpleCAM.generate_gcode"]}
{"id": "C31", "title": "The tool visits the path", "statement": "The XY end points of the motion commands emitted for a path are the path's segment end points in order; arcs become arcs with the direction and centre of the segment.", "quantifier": "all line/arc paths", "why_tests_cant": "All paths.", "anchors": ["tcnc/cam/simplecam.py:SimpleCAM.generate_segment_gcode"]}
{"id": "C32", "title": "Corner splitting is a partition", "statement": "split_path_g1 returns non-empty pieces whose concatenation is the given path; pieces are cut exactly at the joints that are not tangent continuous.", "quantifier": "all paths", "why_tests_cant": "All lists.", "anchors": ["tcnc/cam/util.py:split_path_g1"]}
{"id": "C33", "title": "Angle normalisation", "statement": "normalize_angle returns a value congruent to the argument modulo a full turn lying in [c-pi, c+pi); calc_rotation(a,b) is the congruent rotation of least magnitude.", "quantifier": "all reals", "why_tests_cant": "All reals.", "anchors": ["tcnc/geom/util.py:normalize_angle", "tcnc/geom/util.py:calc_rotation"]}
{"id": "C34", "title": "Affine transforms compose", "statement": "Applying a composed matrix to a point equals applying the matrices one after the other; identity, translation, scale and rotation about a point act as named.", "quantifier": "all matrices and points", "why_tests_cant": "All reals.", "anchors": ["tcnc/geom/transform2d.py"]}
{"id": "C35", "title": "Line intersection is on both lines", "statement": "If Line.intersection returns a point it lies on both lines, and within both segments when segment mode is requested; parallel lines give None.", "quantifier": "all pairs of lines", "why_tests_cant": "All reals.", "anchors": ["tcnc/geom/line.py:Line.intersection"]}
{"id": "C36", "title": "Parallel offset and extension of a line", "statement": "Line.offset(d) is parallel, same length, at distance |d| on the documented side; extend, shift, reversed, subdivide keep the carrier line and the documented end points.", "quantifier": "all lines and distances", "why_tests_cant": "All reals.", "anchors": ["tcnc/geom/line.py:Line"]}
{"id": "C37", "title": "same_side decides the side", "statement": "Line.same_side(p, q) is true exactly when p and q lie on the same side of the line.", "quantifier": "all lines and points", "why_tests_cant": "All reals.", "anchors": ["tcnc/geom/line.py:Line.same_side"]}
{"id": "C38", "title": "Point in triangle", "statement": "P.inside_triangle2D is true exactly for points inside the triangle.", "quantifier": "all triangles and points", "why_tests_cant": "All reals.", "anchors": ["tcnc/geom/point.py:P.inside_triangle2D"]}
{"id": "C39", "title": "Point arithmetic", "statement": "Vector operations satisfy the identities users rely on: dot/cross relations, unit length, normals perpendicular, bisector, rotation preserves distance, distance to line and projection.", "quantifier": "all points", "why_tests_cant": "All reals.", "anchors": ["tcnc/geom/point.py:P"]}
{"id": "C40", "title": "Equality and hashing of points agree", "statement": "Points that compare equal hash equally and approximate equality is an equivalence.", "quantifier": "all points", "why_tests_cant": "All reals.", "anchors": ["tcnc/geom/point.py:P.__eq__", "tcnc/geom/point.py:P.__hash__"]}
{"id": "C41", "title": "Box algebra and clipping", "statement": "A Box built from any two points has ordered corners; union/intersection are bounds; clip_line returns a sub-segment inside the box containing every point of the segment inside the box (up to the epsilon rule).", "quantifier": "all boxes and lines", "why_tests_cant": "All reals.", "anchors": ["tcnc/geom/box.py:Box"]}
{"id": "C42", "title": "Arc points lie on the circle", "statement": "Arc.point_at(mu) lies on the circle and equals the end points at 0 and 1; reversed swaps the ends and keeps the point set; the midpoint is halfway along; offset shifts the radius.", "quantifier": "all arcs", "why_tests_cant": "All reals.", "anchors": ["tcnc/geom/arc.py:Arc"]}
{"id": "C43", "title": "Arc subdivision splits the arc", "statement": "Arc.subdivide splits an arc into two arcs meeting at the asked point, for either direction.", "quantifier": "all arcs", "why_tests_cant": "All reals.", "anchors": ["tcnc/geom/arc.py:Arc.subdivide", "tcnc/geom/arc.py:Arc.subdivide_at_angle"]}
{"id": "C44", "title": "Circle intersections", "statement": "Intersections returned by Arc.intersect_line and ellipse.intersect_circle lie on both curves.", "quantifier": "all circles and lines", "why_tests_cant": "All reals.", "anchors": ["tcnc/geom/arc.py:Arc.intersect_line", "tcnc/geom/ellipse.py:intersect_circle"]}
{"id": "C45", "title": "Bezier subdivision and evaluation", "statement": "subdivide(t) yields two curves that trace exactly the two halves of the original; derivative functions are the true derivatives; a raised quadratic is the same curve.", "quantifier": "all curves and parameters", "why_tests_cant": "All reals.", "anchors": ["tcnc/geom/bezier.py:CubicBezier"]}
{"id": "C46", "title": "Bezier reversal", "statement": "reversed() traces the same curve backwards.", "quantifier": "all curves", "why_tests_cant": "All reals.", "anchors": ["tcnc/geom/bezier.py:CubicBezier.reversed"]}
{"id": "C47", "title": "Polygon measures", "statement": "polygon.area is the signed area (positive for counter-clockwise), unchanged by rotation of the vertex list and negated by reversal; centroid moves with translation; bounding_box bounds all vertices.", "quantifier": "all vertex lists", "why_tests_cant": "All lists.", "anchors": ["tcnc/geom/polygon.py"]}
{"id": "C48", "title": "Convex hull", "statement": "convex_hull returns a strictly convex polygon whose vertices are input points and that contains every input point.", "quantifier": "all point lists", "why_tests_cant": "All lists.", "anchors": ["tcnc/geom/polygon.py:convex_hull"]}
{"id": "C49", "title": "Polyline simplification", "statement": "simplify_polyline_rdp keeps the end points, returns a subsequence, and every dropped vertex is within tolerance of a kept segment.", "quantifier": "all polylines and tolerances", "why_tests_cant": "All lists.", "anchors": ["tcnc/geom/polygon.py:simplify_polyline_rdp"]}
{"id": "C50", "title": "Planar graph bookkeeping", "statement": "After any sequence of edge insertions and removals the adjacency is symmetric, has no self loops or duplicates, and degree/size/order agree with the edge set.", "quantifier": "all histories", "why_tests_cant": "All histories.", "anchors": ["tcnc/geom/planargraph.py:Graph"]}
{"id": "C51", "title": "Culling open edges gives the largest graph without dead ends", "statement": "cull_open_edges terminates, leaves no vertex of degree one, and removes no edge that belongs to any dead-end-free subgraph.", "quantifier": "all graphs, all iteration orders", "why_tests_cant": "All graphs.", "anchors": ["tcnc/geom/planargraph.py:Graph.cull_open_edges"]}
{"id": "C52", "title": "Path building uses every edge exactly once", "statement": "GraphPathBuilder.build_paths returns paths that are walks in the graph and together use every edge exactly once, for every outcome of its random choices.", "quantifier": "all graphs, all choices", "why_tests_cant": "All graphs and random outcomes.", "anchors": ["tcnc/geom/planargraph.py:GraphPathBuilder.build_paths"]}
{"id": "C53", "title": "SVG path parsing follows the path grammar semantics", "statement": "parse_path yields absolute M/L/C/Q/A commands equal to the reference semantics of M L H V C Q A Z in relative and absolute forms with implicit repetition.", "quantifier": "all command lists", "why_tests_cant": "All lists.", "anchors": ["tcnc/svg/svg.py:parse_path"]}
{"id": "C54", "title": "Smooth curve shorthand", "statement": "S and T commands use the reflection of the previous control point.", "quantifier": "all command lists", "why_tests_cant": "All lists.", "anchors": ["tcnc/svg/svg.py:parse_path"]}
{"id": "C55", "title": "Path tokenizer", "statement": "The path tokenizer recovers the command letters and numbers from any rendering of a path with arbitrary separators.", "quantifier": "all paths and separators", "why_tests_cant": "All strings.", "anchors": ["tcnc/svg/svg.py:path_tokenizer"]}
{"id": "C56", "title": "parse_path raises no exceptions", "statement": "parse_path never raises, whatever the path string.", "quantifier": "all strings", "why_tests_cant": "All strings.", "anchors": ["tcnc/svg/svg.py:parse_path"]}
{"id": "C57", "title": "Transform attribute composition", "statement": "parse_transform_attr maps points by applying the listed transforms right to left.", "quantifier": "all transform lists", "why_tests_cant": "All lists.", "anchors": ["tcnc/svg/svg.py:parse_transform_attr"]}
{"id": "C58", "title": "Unit conversion", "statement": "unit2uu and uu2unit are inverse for every supported unit.", "quantifier": "all values and units", "why_tests_cant": "All reals.", "anchors": ["tcnc/svg/svg.py:SVGContext"]}
{"id": "C59", "title": "Inline style round trip", "statement": "inline_style_to_dict(dict_to_inline_style(d)) = d for every style whose names and values contain no ':' or ';' and no surrounding blanks.", "quantifier": "all such dictionaries", "why_tests_cant": "All strings.", "anchors": ["tcnc/svg/css.py"]}
{"id": "C60", "title": "CSS colours stay in range", "statement": "csscolor_to_rgb and parse_channel_value return channel values in 0..255, and hex colours round trip.", "quantifier": "all channel strings/values", "why_tests_cant": "All values.", "anchors": ["tcnc/svg/css.py"]}
{"id": "C61", "title": "Shuffling paths keeps the paths", "statement": "The path shuffler outputs a permutation of its input for every outcome of its random choices.", "quantifier": "all path lists and random choices", "why_tests_cant": "All lists.", "anchors": ["tcnc/pathshuffler.py"]}
{"id": "C62", "title": "Ellipse parametrisation", "statement": "Ellipse.point_at(t) lies on the ellipse for every t, derivative() is its derivative, the axes are ordered, and the distances to focus_points() add up to the major axis.", "quantifier": "all ellipses and parameters", "why_tests_cant": "All reals.", "anchors": ["tcnc/geom/ellipse.py:Ellipse"]}
{"id": "C63", "title": "Elliptical arcs from SVG end points", "statement": "EllipticalArc.from_endpoints returns the arc of the SVG specification: both end points on the ellipse with rotation phi, sweep direction and large-arc choice per the flags.", "quantifier": "all end points, radii, flags and rotations", "why_tests_cant": "All reals.", "anchors": ["tcnc/geom/ellipse.py:EllipticalArc.from_endpoints"]}
{"id": "C64", "title": "The tangential tool follows the path", "statement": "With enable_tangent, in a completed job every cut starts with the tool angle along the start heading of the segment and ends along its end heading (up to full turns and the tolerance), the tool is turned in place by at most half a turn, and it turns by at most half a turn during a cut; on an arc it turns by the sweep of the arc.", "quantifier": "all jobs, paths and angles", "why_tests_cant": "The angle is threaded through arbitrarily many segments, paths and passes.", "anchors": ["tcnc/cam/simplecam.py:SimpleCAM.generate_segment_gcode", "tcnc/cam/simplecam.py:SimpleCAM.generate_rapid_move", "tcnc/cam/util.py:seg_start_angle"]}
{"id": "C65", "title": "A job on ordinary paths completes", "statement": "SimpleCAM.generate_gcode completes without raising for every list of non-empty line/arc paths, every negative step and every sort method except 'optimize' (and 'flip' on an empty list).", "quantifier": "all jobs", "why_tests_cant": "Absence of exceptions for all inputs.", "anchors": ["tcnc/cam/simplecam.py:SimpleCAM.generate_gcode", "tcnc/cam/gcode.py:GCodeGenerator.feed_arc"]}
{"id": "C66", "title": "Flatness bounds the distance to the chord", "statement": "CubicBezier.flatness() bounds the distance of every point of the curve from its chord (up to EPSILON); hence the straight line used when flatness < line_flatness stays within line_flatness of the curve.", "quantifier": "all curves", "why_tests_cant": "A bound over a continuum of parameters.", "anchors": ["tcnc/geom/bezier.py:CubicBezier.flatness", "tcnc/geom/bezier.py:CubicBezier.biarc_approximation"]}
{"id": "C67", "title": "Bezier extrema", "statement": "find_extrema returns exactly the parameters in (0,1) where a coordinate's derivative vanishes, so the box of the end points and the extrema contains the whole curve.", "quantifier": "all curves", "why_tests_cant": "All reals.", "anchors": ["tcnc/geom/bezier.py:CubicBezier.find_extrema"]}
{"id": "C68", "title": "Bezier arc length", "statement": "length(tolerance) terminates for every positive tolerance, lies between the chord and the control polygon, and converges to the true arc length as the tolerance goes to zero.", "quantifier": "all curves and tolerances", "why_tests_cant": "Arc length is a supremum over all inscribed polylines.", "anchors": ["tcnc/geom/bezier.py:CubicBezier.length"]}
{"id": "C69", "title": "Circles and circular arcs as Bezier curves", "statement": "bezier_circle returns a closed chain of four curves never inside the circle and at most 0.028% outside; bezier_circular_arc has the end points, mid point and end tangents of the arc and, up to a quarter turn, is as close to the circle.", "quantifier": "all circles, arcs and parameters", "why_tests_cant": "All reals.", "anchors": ["tcnc/geom/bezier.py:bezier_circle", "tcnc/geom/bezier.py:bezier_circular_arc"]}
{"id": "C70", "title": "Ellipses as Bezier curves", "statement": "bezier_ellipse returns a connected chain from the start to the end angle, in pieces of at most a quarter turn with end points on the ellipse and every point in that part of the ellipse or at most 0.2% nearer to the centre.", "quantifier": "all ellipses and arcs", "why_tests_cant": "All reals.", "anchors": ["tcnc/geom/bezier.py:bezier_ellipse", "tcnc/geom/bezier.py:bezier_elliptical_arc"]}
{"id": "C71", "title": "Sine waves", "statement": "bezier_sine_wave returns 4*cycles connected curves spanning cycles*wavelength from the origin point.", "quantifier": "all amplitudes, wavelengths, cycle counts and origins", "why_tests_cant": "All counts.", "anchors": ["tcnc/geom/bezier.py:bezier_sine_wave"]}
{"id": "C72", "title": "Smoothing keeps the vertices", "statement": "smooth_path returns one curve per non-degenerate segment with the same end points in the same order, and does not fail on paths of segments of positive length.", "quantifier": "all paths and smoothness values", "why_tests_cant": "All lists.", "anchors": ["tcnc/geom/bezier.py:smooth_path", "tcnc/geom/bezier.py:smoothing_curve"]}
{"id": "C73", "title": "Biarc approximation covers the curve", "statement": "biarc_approximation terminates and returns a connected chain of lines and arcs from the start to the end of the curve, lines staying within line_flatness of it.", "quantifier": "all curves, tolerances and depths", "why_tests_cant": "Recursive subdivision of arbitrary depth.", "anchors": ["tcnc/geom/bezier.py:CubicBezier.biarc_approximation"]}
{"id": "C74", "title": "Arc from two points and a tangent", "statement": "Arc.from_two_points_and_tangent returns an arc with the given end points whose tangent at p1 goes through ptan.", "quantifier": "all points", "why_tests_cant": "All reals.", "anchors": ["tcnc/geom/arc.py:Arc.from_two_points_and_tangent"]}
{"id": "C75", "title": "Point in polygon", "statement": "polygon.point_inside is the even-odd rule: it does not depend on the starting vertex or direction, is invariant under translation, true strictly inside and false strictly outside convex polygons.", "quantifier": "all polygons and points", "why_tests_cant": "All lists.", "anchors": ["tcnc/geom/polygon.py:point_inside"]}
{"id": "C76", "title": "Clipping a segment with a polygon", "statement": "polygon.intersect_line returns sub-segments of the line, the line itself if it is inside, and the part inside the polygon for a line through it.", "quantifier": "all polygons and lines", "why_tests_cant": "All lists.", "anchors": ["tcnc/geom/polygon.py:intersect_line"]}
{"id": "C77", "title": "Lowest graph vertex", "statement": "The boundary walk of a planar graph starts at a vertex of minimum ordinate: the node tracked by the graph is a lowest vertex after any sequence of insertions and after any cull_open_edges.", "quantifier": "all graphs and histories", "why_tests_cant": "All histories.", "anchors": ["tcnc/geom/planargraph.py:Graph.add_edge", "tcnc/geom/planargraph.py:Graph._find_bottom_node"]}
{"id": "C78", "title": "Face polygons", "statement": "get_face_polygons terminates for every graph; in a graph without dead ends it traces closed walks that together use each side of each edge exactly once, and returns those that are not wound clockwise.", "quantifier": "all graphs, all node orders", "why_tests_cant": "All graphs; termination depends on the walk being a permutation of the directed edges.", "anchors": ["tcnc/geom/planargraph.py:make_face_polygons", "tcnc/geom/planargraph.py:make_face"]}
{"id": "C79", "title": "Boundary polygon", "statement": "boundary_polygon returns a closed walk around the outside of the graph, whatever dead ends the graph has.", "quantifier": "all graphs", "why_tests_cant": "All graphs.", "anchors": ["tcnc/geom/planargraph.py:Graph.boundary_polygon"]}
{"id": "C80", "title": "Boundary peeling", "statement": "peel_boundary_polygon terminates without changing the graph and returns vertex-disjoint polygons made of graph edges, all inside the given polygon and away from its vertices.", "quantifier": "all graphs and polygons", "why_tests_cant": "All graphs.", "anchors": ["tcnc/geom/planargraph.py:Graph.peel_boundary_polygon"]}
{"id": "C81", "title": "Longest paths", "statement": "build_longest_paths returns walks in the graph that use no edge twice, the first being a longest one.", "quantifier": "all graphs, strategies, random choices and set orders", "why_tests_cant": "All graphs.", "anchors": ["tcnc/geom/planargraph.py:GraphPathBuilder.build_longest_paths"]}
{"id": "C82", "title": "Parsed paths are canonical", "statement": "Every command yielded by parse_path, for any string, is M, L, C, Q or A in upper case with the right number of parameters, and the first one is M.", "quantifier": "all strings", "why_tests_cant": "All strings.", "anchors": ["tcnc/svg/svg.py:parse_path"]}
{"id": "C83", "title": "Exploding a path keeps its segments", "statement": "explode_path returns the segments of the path in order, each as a separate path starting where the previous one ended.", "quantifier": "all paths", "why_tests_cant": "All lists.", "anchors": ["tcnc/svg/svg.py:explode_path"]}
{"id": "C84", "title": "Transform attribute round trip", "statement": "Parsing the attribute text written for a matrix gives that matrix up to half a unit of the sixth decimal in every entry.", "quantifier": "all matrices", "why_tests_cant": "All reals.", "anchors": ["tcnc/svg/svg.py:transform_attr", "tcnc/svg/svg.py:parse_transform_attr"]}
{"id": "C85", "title": "Element transforms compose up the tree", "statement": "get_element_transform maps a point by the transform of the element itself, then those of its ancestors from the nearest to the outermost; missing attributes count as identity.", "quantifier": "all ancestor chains and attributes", "why_tests_cant": "All depths.", "anchors": ["tcnc/svg/svg.py:SVGContext.get_element_transform", "tcnc/svg/svg.py:SVGContext.get_parent_transform"]}
{"id": "C86", "title": "View scale", "statement": "The view scale of a document is the ratio of viewBox width to viewport width, 1 without viewBox, and a viewBox of a different aspect ratio is refused.", "quantifier": "all viewports and viewBoxes", "why_tests_cant": "All reals.", "anchors": ["tcnc/svg/svg.py:SVGContext.__init__"]}
{"id": "C87", "title": "Colour normalisation", "statement": "csscolor_to_cssrgb returns the colour of its argument (a hex colour, name, rgb() text or number) as #rrggbb text.", "quantifier": "all colour texts and numbers", "why_tests_cant": "All strings and reals.", "anchors": ["tcnc/svg/css.py:csscolor_to_cssrgb"]}
{"id": "C88", "title": "Node visibility", "statement": "node_is_visible is true exactly if neither the node nor one of its ancestors is hidden by a display or visibility style; with parents ignored only the node itself counts.", "quantifier": "all ancestor chains", "why_tests_cant": "All depths.", "anchors": ["tcnc/svg/svg.py:SVGContext.node_is_visible"]}
{"id": "C89", "title": "Shuffled paths stay where they are", "statement": "A path shown at a place of the page is still shown there after the path shuffler moved or exploded it.", "quantifier": "all paths, transforms and ancestor chains", "why_tests_cant": "All reals and depths.", "anchors": ["tcnc/pathshuffler.py:BreakShuffle.run"]}
{"id": "C90", "title": "Trailing tool follows the path", "statement": "Offsetting a connected path by the trail distance gives a path for the tool axis along which the trailing tip runs exactly over every segment of the original path in order, pivoting in place at the corners, and the rotation hints point the tool along the original path at both ends of every segment.", "quantifier": "all connected line/arc paths, all positive offsets", "why_tests_cant": "A continuum of tool positions along every possible path.", "anchors": ["tcnc/cam/offset.py:offset_path", "tcnc/cam/offset.py:offset_arc"]}
{"id": "C91", "title": "Offset paths have no gaps", "statement": "For every path the offset path is connected within the tolerance; offsetting fails only for a path without any segment longer than the tolerance.", "quantifier": "all paths, offsets and tolerances", "why_tests_cant": "All lists.", "anchors": ["tcnc/cam/offset.py:offset_path"]}
{"id": "C92", "title": "Smoothing an offset path keeps the rotation continuous", "statement": "fix_G1_path leaves unmarked segments alone and replaces a marked one by biarcs with the same end points, along which the tool turns evenly, without a jump and the short way from the start to the end angle of the original.", "quantifier": "all paths, all tolerances", "why_tests_cant": "All lists and reals.", "anchors": ["tcnc/cam/offset.py:fix_G1_path", "tcnc/cam/offset.py:smoothing_arcs"]}
{"id": "C93", "title": "Fillet between two lines", "statement": "Two lines that meet in a corner and are long enough are joined by an arc of exactly the requested radius, tangent to both, starting on the first and ending on the second; if a line is too short or there is no corner, no arc is made. Any arc returned for any two lines has its ends on the lines.", "quantifier": "all pairs of lines, all radii", "why_tests_cant": "All reals.", "anchors": ["tcnc/geom/fillet.py:create_fillet_arc", "tcnc/geom/fillet.py:fillet_line_line"]}
{"id": "C94", "title": "Rounding a path keeps it connected", "statement": "fillet_path and fillet_polygon return a connected path with the ends of the original; for polylines the result consists of parts of the original segments in order joined by arcs of the requested radius, and every corner that can be rounded is.", "quantifier": "all paths of lines and arcs, closed or open", "why_tests_cant": "All lists.", "anchors": ["tcnc/geom/fillet.py:fillet_path", "tcnc/geom/fillet.py:fillet_polygon", "tcnc/cam/fillet.py:fillet_path"]}
{"id": "C95", "title": "Fillet between a line and an arc", "statement": "A fillet between a line and an arc is an arc of the requested radius tangent to both, at the joint of the two.", "quantifier": "all lines and arcs, all radii", "why_tests_cant": "All reals.", "anchors": ["tcnc/geom/fillet.py:fillet_line_arc"]}
{"id": "C96", "title": "Fillets keep the tool rotation", "statement": "When fillets are inserted with rotation adjustment the tool angle stays continuous along the path and the attributes of the segments (rotation hints, fillet and smoothness marks) are kept on the shortened segments.", "quantifier": "all paths with rotation hints", "why_tests_cant": "All lists.", "anchors": ["tcnc/cam/fillet.py:create_adjusted_fillet", "tcnc/cam/fillet.py:fillet_path"]}
{"id": "C97", "title": "Preprocessing keeps drawing paths whole", "statement": "preprocess_paths turns every drawing path into one or more tool paths, in order, none of which has a gap; without tool offset they run from the start to the end of the drawing path, and with it the tip of the tool follows every piece. It can be applied to every connected drawing.", "quantifier": "all drawings, all options", "why_tests_cant": "All lists and option combinations.", "anchors": ["tcnc/cam/simplecam.py:SimpleCAM.preprocess_paths", "tcnc/cam/simplecam.py:SimpleCAM.path_biarc_approximation"]}
{"id": "C98", "title": "Generator settings take effect", "statement": "Each setter of the G-code generator (axis offset, axis scale, axis letter map, units, tolerance, spindle, blending) changes exactly the settings it names; later motion lines name their words by the mapped letters; position() reports the last commanded value of the axis asked for.", "quantifier": "all settings, axis names and values", "why_tests_cant": "All values and call sequences.", "anchors": ["tcnc/cam/gcode.py:GCodeGenerator.set_axis_offset", "tcnc/cam/gcode.py:GCodeGenerator.set_axis_scale", "tcnc/cam/gcode.py:GCodeGenerator.map_axis", "tcnc/cam/gcode.py:GCodeGenerator.position", "tcnc/cam/gcode.py:GCodeGenerator.set_units", "tcnc/cam/gcode.py:GCodeGenerator.set_tolerance", "tcnc/cam/gcode.py:GCodeGenerator.set_path_blending"]}
{"id": "C99", "title": "Plunging", "statement": "tool_down leaves the tool at the requested depth and feed within the tolerance, moves nothing but Z, by a feed move and never by a rapid, emits exactly one moving line unless the tool is there already, and marks the tool as down.", "quantifier": "all states, depths and feeds", "why_tests_cant": "All reals and histories.", "anchors": ["tcnc/cam/gcode.py:GCodeGenerator.tool_down"]}
{"id": "C100", "title": "Program header", "statement": "The header starts with % and sets plane, units, absolute mode, cutter compensation off, tool length off, the configured path blending and the default feed, in this order, and remembers that feed.", "quantifier": "all configurations", "why_tests_cant": "All settings.", "anchors": ["tcnc/cam/gcode.py:GCodeGenerator.header"]}
{"id": "C101", "title": "Distance to an arc", "statement": "Arc.distance_to_point returns the distance from the point to the nearest point of the arc; with segment set it returns -1 for points that are not radially over the arc.", "quantifier": "all arcs, all points", "why_tests_cant": "A continuum of points on every arc.", "anchors": ["tcnc/geom/arc.py:Arc.distance_to_point"]}
{"id": "C102", "title": "Transforming an arc", "statement": "Arc.transform by a rotation, mirroring, scaling or translation gives the arc whose points are the transformed points of the original, in order; a matrix that distorts is refused.", "quantifier": "all arcs, all similarity matrices", "why_tests_cant": "All reals.", "anchors": ["tcnc/geom/arc.py:Arc.transform"]}
{"id": "C103", "title": "Arc from its centre", "statement": "Arc.from_two_points_and_center returns the arc about the centre from the first to the second point: at most half a turn, or the other way round the circle if large_arc is set.", "quantifier": "all triples of points with equal radii", "why_tests_cant": "All reals.", "anchors": ["tcnc/geom/arc.py:Arc.from_two_points_and_center"]}
{"id": "C104", "title": "Points on an arc", "statement": "Arc.point_on_arc accepts every point of the arc and only points close to the arc.", "quantifier": "all arcs, all points", "why_tests_cant": "All reals.", "anchors": ["tcnc/geom/arc.py:Arc.point_on_arc"]}
{"id": "C105", "title": "Measures of an arc", "statement": "height is the largest distance of a point of the arc from the chord; area, segment_area and length are the areas of the sector and of the part between arc and chord and the arc length; mu inverts point_at.", "quantifier": "all arcs", "why_tests_cant": "All reals.", "anchors": ["tcnc/geom/arc.py:Arc.height", "tcnc/geom/arc.py:Arc.area", "tcnc/geom/arc.py:Arc.segment_area", "tcnc/geom/arc.py:Arc.length", "tcnc/geom/arc.py:Arc.mu"]}
{"id": "C106", "title": "Line and box predicates", "statement": "Line equality, parallelism, coincidence, containment of points and sides of directions are decided by the distances and angles they are named after, up to the tolerance; slope and intercept describe the line; a transformed box contains exactly the transformed points.", "quantifier": "all lines, boxes, points and matrices", "why_tests_cant": "All reals.", "anchors": ["tcnc/geom/line.py:Line.is_parallel", "tcnc/geom/line.py:Line.is_coincident", "tcnc/geom/line.py:Line.point_on_line", "tcnc/geom/line.py:Line.which_side_angle", "tcnc/geom/line.py:Line.slope", "tcnc/geom/line.py:Line.slope_intercept", "tcnc/geom/line.py:Line.from_polar", "tcnc/geom/box.py:Box.transform", "tcnc/geom/box.py:Box.point_inside"]}
{"id": "C107", "title": "Reversing a path", "statement": "reverse_path gives the segments in reverse order, each run backwards over the same points; reversing twice gives the path back and connected paths stay connected.", "quantifier": "all paths of lines and arcs", "why_tests_cant": "All lists.", "anchors": ["tcnc/geom/util.py:reverse_path"]}
{"id": "C108", "title": "Tangential joints", "statement": "segments_are_g1 holds exactly if the segments meet within the tolerance and their directions at the joint differ by less than the tolerance.", "quantifier": "all pairs of lines and arcs", "why_tests_cant": "All reals.", "anchors": ["tcnc/geom/util.py:segments_are_g1"]}
{"id": "C109", "title": "Tangents and normals of a curve", "statement": "CubicBezier.tangent is the unit vector along which the curve runs at the parameter, also at an end point that coincides with its control point; normal is that vector turned left by a quarter; start_tangent_angle and end_tangent_angle are its directions at the ends.", "quantifier": "all curves, all parameters from 0 to 1", "why_tests_cant": "All reals.", "anchors": ["tcnc/geom/bezier.py:CubicBezier.tangent", "tcnc/geom/bezier.py:CubicBezier.normal", "tcnc/geom/bezier.py:CubicBezier.start_tangent_angle", "tcnc/geom/bezier.py:CubicBezier.end_tangent_angle"]}
{"id": "C110", "title": "Inflections", "statement": "find_inflections returns the parameters strictly between 0 and 1 at which the curve changes from bending left to bending right, and 0 for each missing one.", "quantifier": "all curves", "why_tests_cant": "All reals.", "anchors": ["tcnc/geom/bezier.py:CubicBezier.find_inflections"]}
{"id": "C111", "title": "Angles on an ellipse", "statement": "theta2t turns an angle at the centre, measured from the major axis, into the parameter of the point of the ellipse in that direction; pointt finds the parameter of a point of the ellipse; the parameters lie between 0 and a full turn.", "quantifier": "all ellipses, angles and points", "why_tests_cant": "All reals.", "anchors": ["tcnc/geom/ellipse.py:Ellipse.theta2t", "tcnc/geom/ellipse.py:Ellipse.pointt"]}
{"id": "C112", "title": "Inside an ellipse", "statement": "point_inside holds exactly for the points enclosed by the ellipse, all_points_inside exactly if that is so for every point of the list.", "quantifier": "all ellipses, all points", "why_tests_cant": "All reals.", "anchors": ["tcnc/geom/ellipse.py:Ellipse.point_inside", "tcnc/geom/ellipse.py:Ellipse.all_points_inside"]}
{"id": "C113", "title": "Measures of an ellipse", "statement": "area is the area enclosed, eccentricity the ratio of the distance of the foci from the centre to the major half axis, curvature the curvature of the ellipse at a point of it.", "quantifier": "all ellipses", "why_tests_cant": "All reals.", "anchors": ["tcnc/geom/ellipse.py:Ellipse.area", "tcnc/geom/ellipse.py:Ellipse.eccentricity", "tcnc/geom/ellipse.py:Ellipse.curvature"]}
{"id": "C114", "title": "Elliptical arc from its centre", "statement": "EllipticalArc.from_center gives the arc of the tilted ellipse that starts and ends at the given parameters.", "quantifier": "all centres, axes, tilts and sweeps", "why_tests_cant": "All reals.", "anchors": ["tcnc/geom/ellipse.py:EllipticalArc.from_center"]}
{"id": "C115", "title": "Ellipse in a parallelogram", "statement": "ellipse_in_parallelogram returns an ellipse that lies inside the parallelogram and touches its sides.", "quantifier": "all parallelograms", "why_tests_cant": "All reals.", "anchors": ["tcnc/geom/ellipse.py:ellipse_in_parallelogram"]}
{"id": "C116", "title": "Closed polygons and integer polygons", "statement": "is_closed holds exactly if the last vertex repeats the first one within the tolerance; converting to integer polygons and back cuts off the digits after the given decimal, closes the polygon, and changes nothing else.", "quantifier": "all polygons, all numbers of decimals", "why_tests_cant": "All reals and lists.", "anchors": ["tcnc/geom/polygon.py:is_closed", "tcnc/geom/polygon.py:poly2clipper", "tcnc/geom/polygon.py:clipper2poly"]}
{"id": "C117", "title": "Path strategies", "statement": "GraphPathBuilder extends a path from its last edge along edges not used before until there is none left; by the strategy it takes the straightest way on, the sharpest turn, any, or one of the two straightest. build_longest_paths starts from every edge and leaves out a path only if it has all but at most two of the vertices of the next longer one.", "quantifier": "all graphs, strategies, random choices and set orders", "why_tests_cant": "All graphs.", "anchors": ["tcnc/geom/planargraph.py:GraphPathBuilder._get_exit_edge_node", "tcnc/geom/planargraph.py:GraphPathBuilder.build_paths", "tcnc/geom/planargraph.py:GraphPathBuilder.build_longest_paths", "tcnc/geom/planargraph.py:GraphPathBuilder._dedupe_paths"]}
{"id": "C118", "title": "Brush strokes", "statement": "With overshoot or soft landing enabled PaintCAM draws every path unchanged between a straight approach along its starting direction (the soft landing, coming down to z_step, then the landing strip) and a straight departure along its final direction (the overshoot, then the lift-off to height 0), each of the configured length and left out if shorter than the tolerance; otherwise paths are not changed.", "quantifier": "all brush settings and paths", "why_tests_cant": "All reals and lists.", "anchors": ["tcnc/cam/paintcam.py:PaintCAM.process_brush_path", "tcnc/cam/paintcam.py:PaintCAM.preprocess_paths"]}
{"id": "C119", "title": "Travel of the tool", "statement": "When a job is done, feed_distance is the total length of its paths, counted once for each depth at which they were cut.", "quantifier": "all lists of paths of lines and arcs", "why_tests_cant": "All lists and depths.", "anchors": ["tcnc/cam/simplecam.py:SimpleCAM.generate_segment_gcode", "tcnc/cam/simplecam.py:SimpleCAM.feed_distance"]}
{"id": "C120", "title": "Path data becomes geometry", "statement": "parse_path_geom turns path data into one list of segments per subpath: for every line, curve, quadratic curve and arc of the drawing, in order, a segment with the same points.", "quantifier": "all path data", "why_tests_cant": "All texts and reals.", "anchors": ["tcnc/svg/geomsvg.py:parse_path_geom"]}
{"id": "C121", "title": "Arc commands", "statement": "An arc command of path data becomes the arc of the SVG specification: from the current point to the end point, with the given radii and rotation in degrees, the way round that the flags select; radii too small are enlarged, a zero radius gives a line, coinciding end points nothing.", "quantifier": "all arc commands", "why_tests_cant": "All reals.", "anchors": ["tcnc/svg/geomsvg.py:parse_path_geom"]}
{"id": "C122", "title": "Basic shapes", "statement": "svg_element_to_geometry turns a rect into its four sides, a circle into four quarter arcs, an ellipse into four curves along it, a polyline into the lines through its points, a polygon into a closed polyline, a line into one line.", "quantifier": "all elements and attribute values", "why_tests_cant": "All texts and reals.", "anchors": ["tcnc/svg/geomsvg.py:svg_element_to_geometry", "tcnc/svg/geomsvg.py:convert_rect", "tcnc/svg/geomsvg.py:convert_line", "tcnc/svg/geomsvg.py:convert_circle", "tcnc/svg/geomsvg.py:convert_ellipse", "tcnc/svg/geomsvg.py:convert_polyline", "tcnc/svg/geomsvg.py:convert_polygon"]}
{"id": "C123", "title": "Placement of shapes", "statement": "With an element transform and a parent transform every segment of nonzero length is moved point for point by the parent transform after the element transform, and nothing is lost; the paths of several elements follow one another.", "quantifier": "all elements, transforms and lists of elements", "why_tests_cant": "All matrices and lists.", "anchors": ["tcnc/svg/geomsvg.py:svg_element_to_geometry", "tcnc/svg/geomsvg.py:svg_to_geometry"]}
{"id": "C124", "title": "Shapes of a drawing", "statement": "get_shape_elements returns, in document order, every visible shape at or below a node, looking into groups and through uses, leaving out hidden parts, layers whose label matches the skip patterns and elements that are no shapes; each comes with the composition of the transforms of the groups and uses around it; for a selection, with that of all ancestors.", "quantifier": "all documents, nodes, tag lists, skip patterns and selections", "why_tests_cant": "Documents of any size and depth.", "anchors": ["tcnc/inkscape/inksvg.py:InkscapeSVGContext.get_shape_elements", "tcnc/svg/svg.py:SVGContext.node_is_visible", "tcnc/inkscape/inksvg.py:InkscapeSVGContext.is_layer", "tcnc/inkscape/inkext.py:InkscapeExtension.get_elements"]}
{"id": "C125", "title": "Clip rectangle from margins", "statement": "margin_cliprect returns the page without the margins, which are given as in CSS by one to four numbers for top, right, bottom and left.", "quantifier": "all page sizes, one to four margins", "why_tests_cant": "All reals.", "anchors": ["tcnc/inkscape/inksvg.py:InkscapeSVGContext.margin_cliprect"]}
{"id": "C126", "title": "Finding and creating layers", "statement": "find_layer returns the first layer of the given name; create_layer returns that layer, emptied if asked for, or a new empty layer at the end of the document if there is none, or, if a suffix is asked for and the layer is not empty, one with the first numeric suffix that is free or empty; nothing else of the document is changed. In a new layer created with flipy a point (x, y) is shown at (x, h - y), where h is the height of the view to six digits.", "quantifier": "all documents and names", "why_tests_cant": "Documents of any size.", "anchors": ["tcnc/inkscape/inksvg.py:InkscapeSVGContext.find_layer", "tcnc/inkscape/inksvg.py:InkscapeSVGContext.create_layer"]}
{"id": "C127", "title": "Layers of a document", "statement": "get_parent_layer returns the layer a node is in, None if it is in none; get_visible_layers the layers directly below the document that are shown; get_layer_elements the shown elements of a layer; layer_is_locked tells if it is locked.", "quantifier": "all documents and nodes", "why_tests_cant": "Documents of any size and depth.", "anchors": ["tcnc/inkscape/inksvg.py:InkscapeSVGContext.get_parent_layer", "tcnc/inkscape/inksvg.py:InkscapeSVGContext.get_visible_layers", "tcnc/inkscape/inksvg.py:InkscapeSVGContext.get_layer_elements", "tcnc/inkscape/inksvg.py:InkscapeSVGContext.layer_is_locked"]}
{"id": "C128", "title": "Output file name", "statement": "create_pathname returns the absolute path of the file asked for: relative to the current directory or to the home directory for ~, with the defaults for a missing directory, name or extension; with append_suffix it adds a four digit number higher than that of all files of the series, so that no existing file is overwritten.", "quantifier": "all paths, directories and directory listings", "why_tests_cant": "All texts and lists of files.", "anchors": ["tcnc/cam/output.py:create_pathname"]}
{"id": "C129", "title": "From the drawing to the program", "statement": "For a drawing of straight lines the program visits, pass by pass, the corners of all selected visible shapes in document order, each stroke in one go with the tool down and with the tool up in between, at the places where the drawing shows them, mirrored so that Y points up from the bottom of the page; a drawing without shapes leaves no file.", "quantifier": "all documents, selections, options without brush and tool extras", "why_tests_cant": "Documents of any size and depth.", "anchors": ["tcnc/tcnc.py:Tcnc.run", "tcnc/tcnc.py:Tcnc._init_gcode", "tcnc/tcnc.py:Tcnc._init_cam", "tcnc/inkscape/inkext.py:InkscapeExtension.get_elements"]}
{"id": "C130", "title": "One XY move for each call", "statement": "While a call of the G code generator is carried out the machine has, after every line, the XY position it had before the call or the one it has after it: it never passes through a third place, also where a call writes several moves (tangent rotation, tool up, spindle).", "quantifier": "all programs, all lines of them", "why_tests_cant": "All histories.", "anchors": ["tcnc/cam/gcode.py:GCode.feed", "tcnc/cam/gcode.py:GCode.rapid_move", "tcnc/cam/gcode.py:GCode.feed_arc", "tcnc/cam/gcode.py:GCode.tool_down", "tcnc/cam/gcode.py:GCode.tool_up"]}
{"id": "C131", "title": "Units of the program", "statement": "The program is in the chosen machine units, by default those of the document (inches for imperial, millimetres for metric ones); lengths of the drawing appear in it with their value in these units; heights given in machine units do so too.", "quantifier": "all documents, option values and programs", "why_tests_cant": "All reals and documents.", "anchors": ["tcnc/tcnc.py:Tcnc._init_gcode", "tcnc/tcnc.py:Tcnc.run", "tcnc/cam/gcode.py:GCode.set_units"]}
{"id": "C132", "title": "Options of the machine", "statement": "Feed rates, waits, spindle direction and speed, tolerance and number of digits of the program are those of the options; spindle mode 'start' starts the spindle at the start and 'path' at every lowering of the tool; matching the A feed turns the edge of the tool at the XY feed rate; skip_path_count leaves out that many paths.", "quantifier": "all documents, option values and programs", "why_tests_cant": "All reals and programs.", "anchors": ["tcnc/tcnc.py:Tcnc._init_gcode", "tcnc/tcnc.py:Tcnc._init_cam", "tcnc/tcnc.py:Tcnc.OPTIONSPEC"]}
{"id": "C133", "title": "Values of options", "statement": "Boolean options accept true, t, yes, y, false, f, no, n in capitals or small letters and nothing else; angles are given in degrees, percentages in hundredths, lengths in document units; an option not given has its default value in the same units.", "quantifier": "all texts", "why_tests_cant": "All texts.", "anchors": ["tcnc/inkscape/inkext.py:_check_inkbool", "tcnc/inkscape/inkext.py:_check_degrees", "tcnc/inkscape/inkext.py:_check_percent", "tcnc/inkscape/inkext.py:InkscapeExtension", "tcnc/svg/svg.py:SVGContext.unit2uu"]}
{"id": "C134", "title": "Page of the document", "statement": "For a document with a size and a viewBox the page is that of the viewBox, in user units, of which a pixel has as many as the viewBox is wider than the page; without a viewBox a user unit is a pixel; the document units are those of the document properties, px if there are none.", "quantifier": "all documents", "why_tests_cant": "All documents.", "anchors": ["tcnc/inkscape/inksvg.py:InkscapeSVGContext.__init__", "tcnc/svg/svg.py:SVGContext.__init__", "tcnc/inkscape/inksvg.py:InkscapeSVGContext.get_document_size"]}
{"id": "C135", "title": "Tool options of a drawing", "statement": "With overshoot (half the tool width in mode auto, the given distance in mode manual), landing strip or soft landing every stroke of the drawing is drawn unchanged between a straight approach and a straight departure of these lengths; with tool offset the axis is driven so that the tip, the trail offset behind, follows every stroke; without a tangent tool the options for one (tool fillets, tool offset, G1 preservation, closing of polygons) have no effect.", "quantifier": "all documents, selections and options", "why_tests_cant": "Documents of any size and depth.", "anchors": ["tcnc/tcnc.py:Tcnc._init_cam", "tcnc/tcnc.py:Tcnc.run", "tcnc/cam/paintcam.py:PaintCAM.process_brush_path"]}
{"id": "C136", "title": "Written paths are read back", "statement": "create_polypath writes path data that draws the given path: an SVG reader, parse_path included, finds the start, a line, curve or arc for every segment with the same control points, radius and flags, and the closing line if close_path is set, all numbers rounded to the precision; read back as geometry, every point is where it was to half a unit of the last digit. Nothing is written for an empty path.", "quantifier": "all paths of lines, arcs and curves, all precisions", "why_tests_cant": "All reals and lengths.", "anchors": ["tcnc/svg/svg.py:SVGContext.create_polypath", "tcnc/svg/svg.py:SVGContext.set_precision", "tcnc/svg/geomsvg.py:parse_path_geom"]}
{"id": "C137", "title": "Other SVG writers", "statement": "The path data of create_line, create_curve, create_circular_arc, create_polygon and create_ellipse draws, for an SVG reader, the line, curve, arc, polygon (closed as asked for, without repeating the first vertex) or ellipse asked for, with all numbers rounded to the precision; the rotation of an ellipse is written as less than a full turn.", "quantifier": "all points, radii, angles, vertex lists and precisions", "why_tests_cant": "All reals and lengths.", "anchors": ["tcnc/svg/svg.py:SVGContext.create_line", "tcnc/svg/svg.py:SVGContext.create_curve", "tcnc/svg/svg.py:SVGContext.create_circular_arc", "tcnc/svg/svg.py:SVGContext.create_polygon", "tcnc/svg/svg.py:SVGContext.create_ellipse"]}
{"id": "C138", "title": "Segments as SVG text", "statement": "to_svg_path of a line, an arc or a curve is path data that draws it, rounded to six digits.", "quantifier": "all lines, arcs and curves", "why_tests_cant": "All reals.", "anchors": ["tcnc/geom/line.py:Line.to_svg_path", "tcnc/geom/arc.py:Arc.to_svg_path", "tcnc/geom/bezier.py:CubicBezier.to_svg_path"]}
{"id": "C139", "title": "Preview of the tool path", "statement": "The preview draws, on its own layer, exactly the motions of the program in order: a line for every rapid move and every straight cut that moves in XY, an arc for every circular cut, each beginning where the previous motion ended; any program whose first motion is a rapid move to X and Y is previewed to the end.", "quantifier": "all programs, plotter options and starting states", "why_tests_cant": "All programs, all reals.", "anchors": ["tcnc/cam/gcodesvg.py:SVGPreviewPlotter.plot_move", "tcnc/cam/gcodesvg.py:SVGPreviewPlotter.plot_feed", "tcnc/cam/gcodesvg.py:SVGPreviewPlotter.plot_arc"]}
{"id": "C140", "title": "Arcs of the preview", "statement": "An arc of the program is shown in the preview as the arc the machine cuts, on the same side and with the same centre.", "quantifier": "all arcs", "why_tests_cant": "All reals.", "anchors": ["tcnc/cam/gcodesvg.py:SVGPreviewPlotter.plot_arc", "tcnc/svg/svg.py:SVGContext.create_circular_arc"]}
{"id": "C141", "title": "Tool marks of the preview", "statement": "Along every cut the preview marks the tool at equal steps of at least one and less than two intervals from the start to the end of the cut, and while it turns in place by equal angles: each mark has the width of the tool, is square to its direction and lies behind the spindle by the trail offset; the angle goes evenly from that at the start to that at the end.", "quantifier": "all segments, angles, intervals, widths and offsets", "why_tests_cant": "All reals.", "anchors": ["tcnc/cam/gcodesvg.py:SVGPreviewPlotter._draw_tool_marks", "tcnc/cam/gcodesvg.py:SVGPreviewPlotter._draw_tool_mark"]}
{"id": "C142", "title": "Outline of the tool marks", "statement": "For each stretch with the tool down the preview draws, if asked for, the two sides of the swept area: each an unbroken line along the ends of the tool marks from the first to the last, with loops and reversals taken out.", "quantifier": "all runs of tool marks", "why_tests_cant": "Runs of any length.", "anchors": ["tcnc/cam/gcodesvg.py:SVGPreviewPlotter._draw_toolmark_outline", "tcnc/cam/gcodesvg.py:SVGPreviewPlotter._make_outline_path", "tcnc/cam/gcodesvg.py:SVGPreviewPlotter._fix_intersections", "tcnc/cam/gcodesvg.py:SVGPreviewPlotter._fix_reversals"]}
{"id": "C143", "title": "Position of grid lines", "statement": "The line generator draws the lines of a set parallel to one another at the angle asked for, each the given spacing from the last, the first at the edge of the clipping rectangle, from edge to edge of the rectangle and never outside of it.", "quantifier": "all rectangles, spacings, angles and settings", "why_tests_cant": "All reals.", "anchors": ["tcnc/lines.py:LineSet.make_lines", "tcnc/lines.py:LineSet.scaled_spacing"]}
{"id": "C144", "title": "Order and direction of grid lines", "statement": "Every generated line of both sets is drawn, also when the sets are alternated or shuffled; the order is reversed if asked for, lines run backwards (all, or every other one) if asked for, and with doubling every line is followed at once by its way back. Horizontal paths are drawn before vertical ones, or in turns with them if they are alternated.", "quantifier": "all lists of lines, all combinations of options", "why_tests_cant": "All lists and permutations.", "anchors": ["tcnc/lines.py:Lines.run", "tcnc/lines.py:Lines.insert_reversed_lines"]}
{"id": "C145", "title": "Connected grid lines", "statement": "Lines that follow one another end to start are drawn as one path, all others as paths of their own, none is lost and the order is kept; with connectors exactly the missing joints are added and the whole set is one path.", "quantifier": "all lists of lines", "why_tests_cant": "All lists.", "anchors": ["tcnc/lines.py:Lines.connected_paths", "tcnc/lines.py:Lines.insert_connectors"]}
{"id": "C146", "title": "Grid generation ends", "statement": "The generation of a set of lines ends for every setting the dialog accepts.", "quantifier": "all settings", "why_tests_cant": "The number of lines has no bound.", "anchors": ["tcnc/lines.py:LineSet.make_lines"]}
{"id": "C147", "title": "Tiles of a quasi-periodic tiling", "statement": "Every tile drawn is a rhombus with sides of length 1 along two of the equally spaced directions and a corner reached by whole steps in these directions; its colour is the cosine of its angle; its segments connect what the chosen connection type says, and the crossing and rectangle types give crosses and rectangles.", "quantifier": "all settings, all tiles", "why_tests_cant": "All sizes and symmetries.", "anchors": ["tcnc/geom/quasi.py:Quasi.quasi", "tcnc/geom/quasi.py:Quasi._plot", "tcnc/geom/quasi.py:Quasi._init_vectors", "tcnc/geom/quasi.py:_QVector"]}
{"id": "C148", "title": "Crossings of a quasi-periodic tiling", "statement": "A tiling considers every crossing of two inner lines of two directions exactly once, from the middle outwards in rings of width 0.4, and is drawn for every symmetry of at least two.", "quantifier": "all settings", "why_tests_cant": "All sizes and symmetries.", "anchors": ["tcnc/geom/quasi.py:Quasi.quasi", "tcnc/geom/quasi.py:Quasi._init_vectors"]}
{"id": "C149", "title": "Direct commands", "statement": "gcode_command writes a command without values as it is, with one digit codes in their two digit form and its parameters behind it; codes that act only once are written with all values given, also unchanged ones; pause writes M00 or the conditional M01 and changes nothing else; a wait states in its comment the seconds of the command.", "quantifier": "all commands, values, comments and states", "why_tests_cant": "All states and texts.", "anchors": ["tcnc/cam/gcode.py:GCodeGenerator.gcode_command", "tcnc/cam/gcode.py:GCodeGenerator.pause", "tcnc/cam/gcode.py:GCodeGenerator.dwell"]}
{"id": "C150", "title": "Simplified polylines before smoothing", "statement": "With the simplification option each polyline of a path is replaced by lines through some of its vertices, the first and last among them, within the tolerance of all others; all other segments of the path are kept and the order is not changed.", "quantifier": "all paths of lines, arcs and curves and all tolerances of at least 0", "why_tests_cant": "All lengths and mixtures.", "anchors": ["tcnc/polysmooth.py:PolySmooth.simplify_polylines", "tcnc/polysmooth.py:PolySmooth._simplify_polyline"]}
{"id": "C151", "title": "Repeated elements", "statement": "The repeater makes the given number of copies of every selected element, in order; copy n differs from its element only in its transform attribute and appears n intervals away in the direction of the angle.", "quantifier": "all selections, transforms, counts, intervals and angles", "why_tests_cant": "All matrices and counts.", "anchors": ["tcnc/repeater.py:Repeater.run"]}
{"id": "C152", "title": "Lines between two polylines", "statement": "Of the rays between two polylines each drawn line takes one point; the points divide every ray into equal parts, as many lines are drawn as asked for, and with a maximum spacing the parts are shorter than it.", "quantifier": "all rays, counts and spacings", "why_tests_cant": "All reals.", "anchors": ["tcnc/pipelines.py:PipeLines._get_polylines", "tcnc/pipelines.py:PipeLines._num_polylines"]}
{"id": "C153", "title": "Rays between two polylines", "statement": "The rays run from points of the first polyline to points of the second, which is reversed first if its end is nearer; both ends come in the order of their polylines, the end points of both are among them, and a ray from a corner ends where it first meets the other polyline at more than 0.001.", "quantifier": "all pairs of non-empty polylines", "why_tests_cant": "All shapes.", "anchors": ["tcnc/pipelines.py:PipeLines._get_segments", "tcnc/pipelines.py:PipeLines._linex_segment", "tcnc/pipelines.py:PipeLines._pline_distance"]}
{"id": "C154", "title": "Counted colours", "statement": "The colour key lists every fill colour of the shapes once with the number of shapes that have it, and the total is the number of shapes with a fill.", "quantifier": "all lists of shapes and styles", "why_tests_cant": "All style texts.", "anchors": ["tcnc/colorcount.py:ColorCount.run", "tcnc/colorcount.py:ColorCount._draw_color_key_shapes"]}
{"id": "C155", "title": "Tool path checks", "statement": "A tool path is reported as continuous exactly if each segment ends where the next one starts, and as closed exactly if it ends where it starts.", "quantifier": "all tool paths", "why_tests_cant": "All lengths.", "anchors": ["tcnc/cam/toolpath.py:Toolpath.verify_continuity", "tcnc/cam/toolpath.py:Toolpath.is_closed"]}
{"id": "C156", "title": "Lines of Voronoi edges", "statement": "The line a*x + b*y = c of every edge of a Voronoi diagram consists exactly of the points equally far from two different input points; with do_delaunay these two are the edge's Delaunay segment, which is in delaunay_edges.", "quantifier": "all lists of points", "why_tests_cant": "All numbers of points and all positions.", "anchors": ["tcnc/geom/voronoi.py:VoronoiDiagram", "tcnc/geom/voronoi.py:VoronoiEdge", "tcnc/geom/voronoi.py:_Edge"]}
{"id": "C157", "title": "Voronoi vertices", "statement": "Every vertex of a Voronoi diagram is equally far from three different input points, which are its nearest ones; the ends of every edge are vertices on the edge's line.", "quantifier": "all lists of points", "why_tests_cant": "All numbers of points and all positions.", "anchors": ["tcnc/geom/voronoi.py:VoronoiDiagram", "tcnc/geom/voronoi.py:VoronoiEdge"]}
{"id": "C158", "title": "Delaunay triangulation", "statement": "The Delaunay edges join input points only and connect all of them; there is one triangle for each Voronoi vertex, its sides are Delaunay edges, and the numbers fit: edges + 1 = points + vertices. Without do_delaunay there are neither triangles nor Delaunay edges.", "quantifier": "all lists of more than four points, every arithmetic", "why_tests_cant": "All numbers of points and all positions.", "anchors": ["tcnc/geom/voronoi.py:VoronoiDiagram", "tcnc/geom/voronoi.py:DelaunayTriangle"]}
{"id": "C159", "title": "Every Voronoi edge once", "statement": "The diagram has exactly one Voronoi edge for every Delaunay edge.", "quantifier": "all lists of points, every arithmetic", "why_tests_cant": "All numbers of points and all positions.", "anchors": ["tcnc/geom/voronoi.py:VoronoiDiagram"]}
{"id": "C160", "title": "Voronoi computation ends", "statement": "The computation of a diagram ends for every list of points with a diagram of these points.", "quantifier": "all lists of points, every arithmetic", "why_tests_cant": "All numbers of points and all positions.", "anchors": ["tcnc/geom/voronoi.py:VoronoiDiagram"]}
{"id": "C161", "title": "Jiggled points", "statement": "Jiggling moves every point, by no more than a ten millionth of its coordinates, so that no points are in line afterwards.", "quantifier": "all points and random numbers", "why_tests_cant": "All reals.", "anchors": ["tcnc/geom/voronoi.py:jiggle"]}
{"id": "C162", "title": "Corners of a Delaunay triangle", "statement": "p1, p2 and p3 of a Delaunay triangle are its three corners.", "quantifier": "all triangles", "why_tests_cant": "All triangles.", "anchors": ["tcnc/geom/voronoi.py:DelaunayTriangle"]}
{"id": "C163", "title": "Drawn Voronoi edges", "statement": "The Voronoi extension draws, for every edge of the diagram, the part of it inside of the page (or hull), and nothing else.", "quantifier": "all diagrams, clip rectangles and hulls", "why_tests_cant": "All positions of the points and of the rectangle.", "anchors": ["tcnc/voronoi.py:Voronoi._clipped_voronoi_segments", "tcnc/voronoi.py:Voronoi._clipped_poly_voronoi_segments", "tcnc/voronoi.py:Voronoi._draw_voronoi", "tcnc/geom/voronoiclip.py:clip_voronoi_segments"]}
{"id": "C164", "title": "Drawn Delaunay edges", "statement": "The Voronoi extension draws the Delaunay edges that are inside of the hull of the points, all of them if there is no hull.", "quantifier": "all hulls and edges", "why_tests_cant": "All positions.", "anchors": ["tcnc/voronoi.py:Voronoi._clipped_delaunay_segments", "tcnc/voronoi.py:Voronoi._line_inside_hull"]}
{"id": "C165", "title": "Spherical projection", "statement": "The projection of the tiling moves points within the radius along the ray from the centre, so that the distance h becomes r sin(pi/2 h/r), keeps the order of distances, and leaves the rim and all points beyond it where they are.", "quantifier": "all centres, radii and points", "why_tests_cant": "All reals.", "anchors": ["tcnc/quasink.py:SphericalProjector", "tcnc/quasink.py:IdentityProjector"]}
{"id": "C166", "title": "Collected tiles", "statement": "The plotter keeps exactly the tiles whose moved and projected corners are all in the clip region, all segments and such rectangles, in order; it counts the tiles and rectangles of every colour, its box is the smallest one around the tiles, and recentring moves everything by the same vector.", "quantifier": "all sequences of calls, regions, matrices and projections", "why_tests_cant": "All sequences of calls.", "anchors": ["tcnc/quasink.py:_QuasiPlotter"]}
{"id": "C167", "title": "Chains of segments", "statement": "Chaining puts every segment, possibly reversed, into exactly one polyline, with each segment beginning where the one before it ends; no segment of a later polyline meets an end of an earlier one; it ends.", "quantifier": "all lists of segments", "why_tests_cant": "All numbers of segments.", "anchors": ["tcnc/quasink.py:_SegmentChain", "tcnc/quasink.py:QuasiExtension._create_chains"]}
{"id": "C168", "title": "Inset tiles and scaled segments", "statement": "The corners of an inset tile are at the given distance inside of the sides that meet there and at least that far from the others; there is none for thinner tiles. Scaled segments keep their middle and line and have the given multiple of their length.", "quantifier": "all tiles, distances and factors", "why_tests_cant": "All reals.", "anchors": ["tcnc/quasink.py:QuasiExtension._inset_polygon", "tcnc/quasink.py:QuasiExtension._draw_segments", "tcnc/quasink.py:QuasiExtension._draw_polygon_segments"]}
{"id": "C169", "title": "Nested offset polygons", "statement": "Nested offsetting draws the offsets of the polygons, the offsets of these and so on, each and nothing else, and ends.", "quantifier": "all polygons and offset operations", "why_tests_cant": "All depths of nesting.", "anchors": ["tcnc/polypath.py:PolyPath._offset_polys"]}
{"id": "C170", "title": "Offset outline", "statement": "The outline made of a polygon for offsetting has, for every side, a parallel side at the offset distance on the outer side (up to the rounding to the grid); square joins are cut square to the bisector at the offset distance, miter joins end where the offset lines meet if that is within the limit and are cut square otherwise; no point of the outline is further from a vertex than the join allows.", "quantifier": "all polygons, offsets, joins and limits", "why_tests_cant": "All polygons and reals.", "anchors": ["tcnc/contrib/clipper.py:_OffsetInternal", "tcnc/contrib/clipper.py:_GetUnitNormal", "tcnc/geom/polygon.py:offset_polygons"]}
{"id": "C171", "title": "Offsetting grid", "statement": "Polygons are offset on a grid of 10^-EPSILON_PRECISION: conversion moves a vertex by less than one unit in each coordinate and never away from the axes, and the polygons that come back are closed.", "quantifier": "all polygons and resolutions", "why_tests_cant": "All reals.", "anchors": ["tcnc/geom/polygon.py:poly2clipper", "tcnc/geom/polygon.py:clipper2poly"]}
{"id": "C172", "title": "Area and orientation of grid polygons", "statement": "The area of a grid polygon is the shoelace area, positive exactly for counterclockwise polygons; reversing negates it.", "quantifier": "all polygons", "why_tests_cant": "All polygons.", "anchors": ["tcnc/contrib/clipper.py:Area", "tcnc/contrib/clipper.py:Orientation"]}
{"id": "C173", "title": "Every simple polygon can be offset", "statement": "Every polygon of at least three vertices can be offset with every kind of join: it is freed of repeated vertices, brought into counterclockwise order and its outline is united.", "quantifier": "all polygons, offsets, joins and limits", "why_tests_cant": "All polygons.", "anchors": ["tcnc/geom/polygon.py:offset_polygons", "tcnc/contrib/clipper.py:OffsetPolygons", "tcnc/contrib/clipper.py:_StripDupPts", "tcnc/contrib/clipper.py:_OffsetInternal"]}
{"id": "C174", "title": "Miter limit of polygon offsets", "statement": "No corner of an offset polygon with miter joins is further than limit times the offset from its vertex (at least twice the offset).", "quantifier": "all polygons, offsets and limits", "why_tests_cant": "All polygons and reals.", "anchors": ["tcnc/geom/polygon.py:offset_polygons", "tcnc/contrib/clipper.py:_OffsetInternal"]}
{"id": "C175", "title": "The sine wave extension", "statement": "The sine wave extension adds one layer named 'sine wave' at the end of the document and changes nothing else of it; the layer is flipped about the height of the view and contains one path, which read back is the wave: 4*cycles connected curves from the origin over cycles*wavelength, up to half a unit of the last decimal. Without cycles the layer is empty.", "quantifier": "all documents, amplitudes, wavelengths, numbers of cycles and origins", "why_tests_cant": "All documents and reals.", "anchors": ["tcnc/sinewave.py:SineWave.run", "tcnc/svg/svg.py:SVGContext.create_path", "tcnc/svg/svg.py:SVGContext.create_polypath", "tcnc/inkscape/inksvg.py:InkscapeSVGContext.create_layer"]}
{"id": "C176", "title": "Variable and random spacing of grid lines", "statement": "With variable spacing the distance to the next grid line is the spacing times the value of the formula at the place within its cycle (inverted if asked for), at least the minimum and at most the maximum; with jitter a line is moved by its random share of that distance and turned about its middle by its random angle. The lines drawn are these, clipped to the rectangle; without jitter none is left out or shortened.", "quantifier": "all rectangles, spacings, formulas, limits, cycles and random numbers", "why_tests_cant": "All reals.", "anchors": ["tcnc/lines.py:LineSet.make_lines", "tcnc/lines.py:LineSet.scaled_spacing", "tcnc/lines.py:LineSet.angle_jittered_line", "tcnc/lines.py:LineSet.spacing_jitter_scale"]}
{"id": "C177", "title": "Where the tiles of a tiling are", "statement": "A crossing of two lines of a tiling gives a tile exactly if it is between the second and the last but one line of every other direction; the corner of the tile is reached with as many steps in each direction as there are lines of it below the crossing. The lines of a direction are parallel to it, one apart, around the origin, shifted by a multiple of the difference of the salts. The drawing consists of the contributions of the crossings, each once.", "quantifier": "all settings", "why_tests_cant": "All sizes and symmetries.", "anchors": ["tcnc/geom/quasi.py:Quasi.quasi", "tcnc/geom/quasi.py:_QVector"]}
{"id": "C178", "title": "Paths and polygons of a drawing", "statement": "The polypath extension draws, in one layer each: paths that together run along every side of the selected shapes exactly once (if asked for without the short ones); the longest paths, the longest first, at most the number asked for; the convex hull of the ends; the outer boundary, and the boundaries inside of it.", "quantifier": "all drawings, settings, random numbers and geometries", "why_tests_cant": "Drawings with any number of shapes.", "anchors": ["tcnc/polypath.py:PolyPath.run", "tcnc/polypath.py:PolyPath._draw_polypaths", "tcnc/polypath.py:PolyPath._draw_longest_polypaths", "tcnc/polypath.py:PolyPath._draw_convex_hull", "tcnc/polypath.py:PolyPath._draw_polygon_hulls"]}
{"id": "C179", "title": "General equation of a line", "statement": "general_equation returns coefficients a, b, c such that the points of the line are exactly those with ax + by + c = 0; intersects tells whether two segments meet.", "quantifier": "all lines", "why_tests_cant": "All reals.", "anchors": ["tcnc/geom/line.py:Line.general_equation", "tcnc/geom/line.py:Line.intersects"]}
