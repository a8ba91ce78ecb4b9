#!/usr/bin/env python3
"""Writes /verif/properties.jsonl. The list below is the source of truth for the English properties."""
import json, os
P = []
def p(title, statement, quantifier, why, anchors):
    P.append(dict(id="C%02d" % (len(P) + 1), title=title, statement=statement,
                  quantifier=quantifier, why_tests_cant=why, anchors=anchors))

W="src/pygcode/words.py"; L="src/pygcode/dialects/linuxcnc.py"; C="src/pygcode/comment.py"; LI="src/pygcode/line.py"
B="src/pygcode/block.py"; G="src/pygcode/gcodes.py"; M="src/pygcode/machine.py"; T="src/pygcode/transform.py"; U="src/pygcode/utils.py"
CR="scripts/pygcode-crop"; NO="scripts/pygcode-norm"; DI="src/pygcode/dialects/__init__.py"

# ------------------------------------------------------------------ text -> words
p("Tokeniser follows one grammar, always terminates, fails only with GCodeWordStrError",
  "text2words(t) always terminates; it returns a word list exactly when t can be read, left to right, as: skip any non-letter non-newline characters, a letter, then the longest value text that letter's value pattern allows, repeated, with only whitespace after the last value; the words returned are that reading (which is unique), and in every other case an exception is raised and nothing is returned.",
  "every text (string of code points below 256), any length", "infinitely many texts; regex backtracking and index arithmetic must agree with the grammar on all of them",
  [W+":text2words", L+":REGEX_FLOAT", L+":REGEX_INT", L+":REGEX_POSITIVEINT", L+":REGEX_CODE", L+":WORD_MAP"])
p("Freely spaced, any-case word sequences tokenise to those words",
  "For any sequence of words written as a letter (either case), optional blanks, and a numeral that is valid for the letter, separated by any amount of blanks (including none), text2words returns exactly these words, in order, with the numeral's value; nothing is lost, merged, split or reordered.",
  "every list of words, every spacing, every letter case", "all lists of words and all spacings; adjacency without blanks ('G1X2Y-.5') is where tokenisers break",
  [W+":text2words", W+":Word.__init__", L+":WORD_MAP"])
p("Malformed text is rejected, never silently reinterpreted",
  "If a block text contains characters that are not part of any word (other than blanks), parsing raises an error.",
  "every text", "needs every text with stray characters at every position", [W+":text2words"])
p("Letter case does not matter",
  "Changing the case of letters in a block text does not change the words (or the error) text2words produces, as long as the text has no program-name (O) word.",
  "every text without the letter O", "all texts", [W+":text2words", W+":Word.__init__"])
p("Whitespace clean-up by Block does not change the meaning of the text",
  "The words of Block(t) are those text2words(t) would produce on the uncleaned text: trimming and collapsing blanks never changes a word.",
  "every newline-free text", "all texts and all blank patterns", [B+":Block.__init__", W+":text2words"])
p("A printed coordinate word reads back with a bounded error",
  "For a word with a float-valued letter and a value v with |v| < 10^6 (after rounding), str(word) is readable by text2words as a single word of the same letter, whose value differs from v by at most 0.0005 plus half a unit in the sixth significant digit; if v is a multiple of 0.001 with |v| < 1000, the value is exactly v.",
  "every float value in the range, every float letter", "a continuum of values; formatting (%g, round) has many digit-count branches",
  [W+":Word.__str__", W+":Word.value_str", L+":CLEAN_FLOAT", W+":text2words"])
p("Every printed word reads back as the same word",
  "For every word, text2words(str(word)) returns exactly one word with the same letter, and printing it again gives the same text.",
  "every word of every letter and every value", "all values, including large ones where %g switches to exponent notation",
  [W+":Word.__str__", L+":CLEAN_FLOAT", L+":CLEAN_INT", L+":CLEAN_CODE"])
p("G/M code words and N/L integer words survive printing",
  "For every G or M code k/10 with 0 <= k < 10^6 and every N or L integer 0 <= n < 10^6, str(word) tokenises back to an equal word; codes below 10 are printed with a leading zero.",
  "every code / integer in the range", "two million values and the leading-zero rule", [L+":_clean_codestr", L+":CLEAN_INT", W+":Word.__eq__"])
p("Word equality, hashing and ordering are coherent",
  "Word equality is an equivalence relation, equal words have equal hashes, != is its negation, and <, <=, >, >= are one total order on (letter, value) consistent with equality.",
  "all pairs and triples of words built by the constructor", "all triples of words",
  [W+":Word.__eq__", W+":Word.__hash__", W+":Word.__lt__", W+":Word.__le__", W+":Word.__gt__", W+":Word.__ge__"])
p("words2dict keeps exactly the last value of each allowed letter",
  "words2dict(ws, letters) has a key exactly for the letters that occur in ws and are allowed, and the value is that of the last such word.",
  "every word list and every white-list", "all lists", [W+":words2dict"])
p("str2word accepts exactly the texts with at most one word",
  "str2word(t) returns the word of t when text2words(t) gives one word, None when it gives none, raises GCodeWordStrError when it gives several, and otherwise raises what text2words raises.",
  "every text", "all texts", [W+":str2word"])
# ------------------------------------------------------------------ comments / lines
p("split_line: semicolon comments",
  "If a (newline-free) line contains ';', the block text is what precedes the first ';' without its trailing blanks and the comment is what follows it without leading blanks; if it contains no ';' and no closed bracket pair, the text is returned unchanged with no comment.",
  "every newline-free line", "all lines", [C+":split_line", C+":CommentSemicolon"])
p("split_line: bracket comments",
  "In a line without ';', every maximal '(...)' up to its first ')' is removed, the block text is the concatenation of what is outside, in order, and the comment text is the bracket contents joined by '. '.",
  "every line without ';', any number of comments", "all lines, any number of brackets", [C+":split_line", C+":CommentBrackets"])
p("Comment contents never influence the machine code of a line",
  "Replacing the text inside a comment by any other comment text leaves the line's block (words, gcodes, modal parameters) unchanged.",
  "every line with a comment, every replacement text", "quantifies over all pairs of comment texts", [C+":split_line", LI+":Line.__init__"])
p("Line splits its text without loss",
  "For every text whose newlines are all at its end, Line(text) splits it as block-and-comment part, then a macro starting at the first '%' (if any), then trailing whitespace, and these concatenate back to the text; any other text raises instead of being partly read.",
  "every text", "all texts", [LI+":Line.line_regex", LI+":Line.__init__"])
p("Printing a line is a normal form",
  "str(Line(str(Line(t)))) == str(Line(t)) for every readable line t.",
  "every readable line", "all lines", [LI+":Line.__str__", B+":Block.__str__", C+":CommentSemicolon.__str__", C+":CommentBrackets.__str__"])
# ------------------------------------------------------------------ gcodes
p("Every word selects at most one gcode class",
  "No two gcode classes claim the same word: the class a word maps to does not depend on class-table order, and words whose letter is not one of G M F S T N O never map to a class.",
  "every word (all letters, all values)", "infinitely many word values; the test only cross-checks the key words against the matcher functions", [G+":build_maps", G+":word_gcode_class", G+":_subclasses"])
p("words2gcodes loses and invents nothing",
  "When words2gcodes(ws) succeeds, the words of the returned gcodes, all their parameter words, and the unused words together are a permutation of ws; gcodes and unused words keep their relative order.",
  "every word list", "all word lists", [G+":words2gcodes"])
p("Parameters attach to the nearest preceding gcode that accepts them",
  "A word is a parameter of the last preceding gcode of the result whose class accepts its letter; a word is itself a gcode exactly when it maps to a class and no gcode before it accepts its letter; all other words are returned as unused.",
  "every word list", "all word lists", [G+":words2gcodes"])
p("Gcode parameters are legal and unique",
  "Every gcode that can be constructed (from words, from text, by keyword, or by attribute assignment) has only parameters its class allows, at most one per letter, each stored under its own letter; words2gcodes raises GCodeParameterError exactly when some gcode would get a letter twice.",
  "every word list and every sequence of parameter additions / assignments", "all construction histories", [G+":GCode.__init__", G+":GCode.add_parameter", G+":GCode.__setattr__", G+":words2gcodes"])
p("Flattening gcodes to words and regrouping gives the same gcodes",
  "For any gcodes produced by words2gcodes, listing each gcode's word followed by its parameters (in any order within the gcode) and grouping again gives the same gcodes with the same parameters and no unused words.",
  "every word list", "all word lists", [G+":words2gcodes", G+":GCode.__str__"])
p("text2gcodes accepts exactly fully-formed text",
  "text2gcodes(t) returns gcodes exactly when every word of t is a gcode or a parameter of one; otherwise it raises.",
  "every text", "all texts", [G+":text2gcodes"])
p("A verified block has no conflicting gcodes",
  "Block(t) with verification succeeds only if no two of its gcodes have the same word or the same (non-empty) modal group, and verification rejects no other block.",
  "every text", "all gcode lists", [B+":Block._assert_gcodes"])
p("Printing a block preserves its meaning",
  "Block(str(b)) has the same gcodes, parameters and modal parameters as b.",
  "every parsed block whose words survive printing", "all blocks", [B+":Block.__str__", G+":GCode.__str__"])
p("Gcodes run in execution order, ties in written order",
  "The order in which process_gcodes executes gcodes is a permutation of the given ones, never decreasing in execution order, and gcodes of equal execution order keep their written order; it is the only such order.",
  "every gcode list", "all lists", [M+":Machine.process_gcodes", G+":GCode.__lt__"])
p("split_gcodes splits the sorted list at the first match",
  "The three lists concatenate to the (sorted) input; the first contains no instance of the class; the second is the first instance or empty; the third is empty when the second is; with sort_list=False the input order is kept.",
  "every gcode list and class", "all lists", [G+":split_gcodes"])
p("modal_copy keeps the word, the class and exactly the modal parameters",
  "modal_copy never fails, keeps class and word, keeps a parameter if and only if its letter is in the class's modal letters, and is idempotent.",
  "every gcode", "all parameter dictionaries", [G+":GCode.modal_copy"])
p("Gcode attributes behave like a record",
  "Reading an allowed parameter letter gives its value or None; assigning a letter makes it read back as the assigned value and leaves every other parameter unchanged; assigning a letter the class does not allow never changes the parameters.",
  "every gcode, letter and value", "all assignment histories", [G+":GCode.__getattr__", G+":GCode.__setattr__", G+":GCode.get_param_dict"])
p("A printed gcode is its word followed by its parameters in letter order",
  "str(gcode) is the word (or the same number of blanks when the word is suppressed) followed by every parameter once, in increasing letter order; suppressing the word changes no parameter.",
  "every gcode", "all gcodes", [G+":GCode.__str__"])
# ------------------------------------------------------------------ mode
p("A modal group only ever holds a gcode of that group",
  "After any history of gcodes, set_mode calls and mode assignments, the gcode stored for a modal group belongs to that group and carries only its modal parameters.",
  "every machine history", "all histories", [M+":Mode.set_mode", M+":Mode.__setattr__", G+":GCode._process_mode"])
p("The active mode of a group is that of the last gcode processed in that group",
  "For every modal group other than motion, the mode after any successful program equals the modal copy of the last processed gcode of the group, or the initial mode if there is none; for motion the same holds with G80 clearing it.",
  "every program (list of blocks)", "all histories", [M+":Machine.process_gcodes", M+":Mode.set_mode", G+":GCodeCancelCannedCycle._process"])
p("Setting one mode leaves the other groups alone",
  "Processing gcodes changes the mode of no group that none of them belongs to (G80 aside, which only clears motion).",
  "every gcode list, every machine", "all states", [M+":Mode.set_mode"])
p("A machine's mode can be replayed from its mode gcodes",
  "Setting the gcodes listed by mode.gcodes on an empty mode reproduces the mode in every group.",
  "every reachable mode", "all reachable modes", [M+":Mode.gcodes", M+":Mode.set_mode"])
p("A default machine starts in the documented mode",
  "A new Machine is at the origin in all axes, in rapid motion, absolute distance, XY plane, millimetres, coordinate system 1, with spindle and coolant off and F, S, T zero, and no mode in any other group.",
  "every modal group", "stated for every modal-group number", [M+":Mode.default_mode", M+":Mode.__init__", M+":Machine.__init__"])
# ------------------------------------------------------------------ position
p("Position arithmetic is per-axis arithmetic",
  "For positions with the same axes and unit, + - * / act on each axis separately; in exact arithmetic (a+b)-b = a, a+b = b+a, (a+b)+c = a+(b+c), (a*s)/s = a for s != 0; operands are never modified and mismatched axes raise MachineInvalidAxis as documented.",
  "all positions, axis sets, scalars", "all values", [M+":Position.__add__", M+":Position.__sub__", M+":Position.__mul__", M+":Position.__div__"])
p("Unit conversion is reversible and consistent",
  "Switching a position's unit multiplies every axis by 25.4 or 1/25.4, and switching back restores it; a position equals its converted copy, and equality is symmetric.",
  "all positions", "all values", [M+":Position.unit", M+":Position.__eq__", M+":UNIT_MAP"])
p("Arithmetic on positions with different units is physically meaningful",
  "Adding or subtracting positions given in different units gives the physical sum or difference.",
  "all pairs of positions", "all values and unit combinations", [M+":Position.__add__", M+":Position.__sub__"])
p("Position.min / max give the per-axis bounds",
  "On each axis of the first operand, Position.min(a,b) is the smaller and Position.max(a,b) the larger of the two coordinates (in a's unit).",
  "all pairs of positions", "all values", [M+":Position._cmp", M+":Position.min", M+":Position.max"])
p("Axis attributes are independent and guarded",
  "Assigning an axis of a position reads back the value, changes no other axis, and assigning an axis the position does not have raises MachineInvalidAxis and changes nothing.",
  "all positions, axes, values, and all sequences of assignments", "all histories", [M+":Position.__setattr__", M+":Position.__getattr__", M+":Position.update"])
# ------------------------------------------------------------------ machine
p("Absolute moves put the named axes at the given values and leave the rest",
  "In absolute distance mode a motion gcode with coordinates makes pos equal to the given value on each named machine axis and unchanged on the others.",
  "every machine state, every motion gcode", "all states and coordinates", [M+":Machine.move_to", G+":GCodeMotion._process"])
p("Incremental moves add the given values",
  "In incremental distance mode a motion gcode adds the given value to each named machine axis and leaves the others unchanged; a program of incremental moves ends at the start plus the sum of the increments.",
  "every machine state, every program", "all histories", [M+":Machine.move_to", G+":GCodeMotion._process"])
p("Work and absolute coordinates are inverse to each other",
  "abs2work(work2abs(p)) == p and work2abs(abs2work(p)) == p, and assigning pos then reading it gives the assigned position, whatever offsets are active.",
  "all offsets, coordinate systems, positions", "all values", [M+":Machine.abs2work", M+":Machine.work2abs", M+":Machine.pos"])
p("The recorded range is exactly the bounding box of the path",
  "After any program, abs_range_min / abs_range_max are, on every machine axis, the least / greatest value among the initial position and every position reached, so every reached position lies inside, and both bounds are attained.",
  "every program", "all histories", [M+":Machine._update_abs_range", M+":Machine.pos"])
p("Only motion gcodes move the machine",
  "Processing a gcode that is not a motion or canned-cycle gcode never changes abs_pos nor the recorded range.",
  "every gcode, every machine", "all states", [G+":GCode.process", G+":GCode._process"])
p("Selecting a coordinate system changes only the frame of reference",
  "G54..G59.3 select systems 1..9: abs_pos is unchanged and pos becomes abs_pos minus that system's offset and the temporary offset.",
  "every machine, all nine systems", "all offsets", [G+":GCodeSelectCoordinateSystem", M+":Machine.set_mode", M+":Machine.pos"])
p("Bare parameters act like the full command in the current motion mode",
  "A block consisting only of parameters acts exactly like the same block preceded by the current motion word (for motion modes that retain no parameters).",
  "every machine, every parameter list", "all states", [M+":Machine.modal_gcode", M+":Machine.process_block"])
p("Unassignable modal parameters are refused without side effects",
  "If some bare parameter cannot belong to the current motion mode (or there is none), process_block raises MachineInvalidState and the machine is unchanged; with ignore_invalid_modal the rest of the block is processed.",
  "every machine, every block", "all states and blocks", [M+":Machine.modal_gcode", M+":Machine.process_gcodes"])
p("The order of words in a block does not matter to the machine",
  "Two blocks with the same words in different order leave the machine in the same state.",
  "every machine, every pair of permuted blocks", "all permutations", [M+":Machine.process_block", G+":words2gcodes"])
p("Canned cycles end where documented",
  "In the XY plane a drilling cycle with loop count L (at least 1) leaves X, Y at the programmed position (absolute) or L times the increment further (incremental), Z unchanged under G98 (default) and at R under G99; the cycle never moves an axis it does not name.",
  "every machine, cycle, L", "all L and coordinates", [G+":GCodeCannedCycle._process"])
p("G80 cancels the motion mode",
  "After a block containing G80 and no other motion gcode there is no motion mode and bare parameters are refused; with another motion gcode in the block that one is the mode.",
  "every machine and block", "all states", [G+":GCodeCancelCannedCycle._process", M+":Machine.modal_gcode"])
p("Copying a machine gives an equal, independent machine",
  "copy(m) has the same pos, mode, coordinate system and offsets as m.",
  "every machine state", "all states", [M+":Machine.__copy__", M+":State.__copy__", M+":Mode.__copy__"])
p("Switching length units keeps the physical position",
  "Processing G20 or G21 does not change where the machine is physically, and later coordinates are read in the new unit.",
  "every machine", "all states", [G+":GCodeUnit", M+":Machine.set_mode"])
p("Offset and reference codes do not move the tool to their axis words",
  "A block 'G92 <axis words>' (and likewise G28, G30, G53 without motion) does not change abs_pos.",
  "every machine and block", "all states", [G+":GCodeCoordSystemOffset", G+":GCodeGotoPredefinedPosition", M+":Machine.process_block"])
p("clean_block removes exactly the words that cannot be used",
  "After clean_block(b), processing b cannot fail because of unassignable modal parameters; the kept modal parameters are, in order, exactly those the current motion mode accepts (none if the block has its own motion or there is no motion mode).",
  "every machine and block", "all states and blocks", [M+":Machine.clean_block"])
p("Processing a program is processing its gcodes one by one",
  "process_block on blocks equals processing, one gcode at a time, the execution-ordered gcodes of each block; in particular splitting a sorted block in two and processing the halves gives the same machine.",
  "every program and split", "all histories", [M+":Machine.process_gcodes", M+":Machine.process_block", M+":Machine.block_modal_gcodes"])
# ------------------------------------------------------------------ transforms
p("Absolute-to-incremental conversion preserves the path",
  "Running the converted gcodes on a machine in incremental mode visits the same positions as running the originals in absolute mode (repeated positions aside), and no converted move is zero.",
  "every start position and list of rapid/linear moves", "all move lists", [G+":_gcodes_abs2rel"])
p("Omitting redundant motion words preserves the program",
  "Reading the output of omit_redundant_modes modally (a suppressed word means the last motion word) gives back the same gcodes; only motion words equal to the active one are suppressed.",
  "every gcode list", "all lists", [U+":omit_redundant_modes"])
p("Expanding a canned cycle ends where the machine model says the cycle ends",
  "Executing simplify_canned_cycle's output leaves the machine at the same position as processing the canned gcode itself.",
  "every cycle, start position, mode", "all parameters", [T+":simplify_canned_cycle", G+":GCodeCannedCycle._process"])
p("Expanded drilling is safe",
  "No rapid move goes below material already drilled in the hole, no move goes below the programmed depth, the programmed depth is reached, sideways moves happen at or above the retract height.",
  "every drilling cycle", "all parameters, any number of pecks", [T+":simplify_canned_cycle"])
p("Expansion of a peck cycle terminates",
  "simplify_canned_cycle always terminates, with ceil(depth/Q) pecks per hole.",
  "every cycle", "termination for all values", [T+":simplify_canned_cycle"])
p("A linearized arc starts, ends and is connected",
  "The vertices produced for an arc start at the current position, each segment starts where the previous ended, and the last ends exactly at the programmed end point.",
  "every arc, plane, method, error bound", "a continuum of arcs", [T+":ArcLinearizeMethod.iter_vertices", T+":linearize_arc"])
p("A linearized arc stays within the allowed error",
  "Every point of every segment is within max_error of the circle: inside it for the inside method, outside it for the outside method, and within max_error/2 either side for the mid method.",
  "every arc, error bound, every point of every segment", "a continuum", [T+":ArcLinearizeInside", T+":ArcLinearizeOutside", T+":ArcLinearizeMid", T+":ArcLinearizeMethod.iter_vertices"])
p("The arc centre is right",
  "For R arcs the centre is at distance |R| from both ends and on the side that makes the arc shorter (R>0) or longer (R<0) than a half circle in the commanded direction; for IJK arcs whose ends are equidistant from the given centre and differ, the centre used is the given one.",
  "every arc", "a continuum", [T+":linearize_arc"])
p("The swept angle is right in every plane",
  "In each of the planes G17, G18, G19, turning the start radius by the computed arc angle in the commanded direction gives the end radius.",
  "every arc and plane", "a continuum", [T+":linearize_arc", G+":GCodePlaneSelect.quat"])
p("Full circles are linearized as full circles",
  "An IJK arc whose end equals its start produces a full turn around the given centre.",
  "every full-circle arc", "a continuum", [T+":linearize_arc"])
p("Helical motion is proportional to the angle",
  "Along a linearized helical arc the coordinate along the plane normal advances in proportion to the angle swept, from the start height to the end height.",
  "every arc", "a continuum", [T+":ArcLinearizeMethod.iter_vertices"])
p("Rounding errors do not accumulate in incremental arcs",
  "In incremental mode the running sum of the emitted rounded increments is, after every segment, within half a unit of the last decimal place of the exact vertex, however many segments there are.",
  "every vertex list, any length", "unbounded number of segments", [T+":linearize_arc"])
p("Plane projection is the orthogonal projection",
  "plane_projection(v, n) is perpendicular to n, differs from v by a multiple of n, and is idempotent.",
  "every vector and non-zero normal", "a continuum", [U+":plane_projection"])
p("quat2align / quat2coord_system align the vectors they promise to",
  "quat2align(a,b) rotates a onto b; quat2coord_system(o1,o2,a1,a2) rotates o1 onto a1 and o2 onto a2.",
  "every pair of (perpendicular) non-zero vectors", "a continuum", [U+":quat2align", U+":quat2coord_system"])
# ------------------------------------------------------------------ scripts & dialects
p("Cropping keeps exactly the selected lines",
  "pygcode-crop outputs the lines from the first one satisfying the first condition up to, not including, the first one from there on (itself included) that satisfies the last condition, in order and each once; nothing else is printed but the lines that put the machine in place.",
  "every file and range", "all files", [CR])
p("Cropping reproduces the machine state before the first kept line",
  "Running the preamble printed by pygcode-crop puts a machine in the same position and mode as the removed part of the program did, so the kept lines do the same as in the original.",
  "every file and range", "all programs", [CR])
p("pygcode-norm without options preserves the program",
  "With no transformation options pygcode-norm's output has, line by line, the same gcodes, modal parameters, comment and macro as the input.",
  "every file", "all files", [NO])
p("pygcode-norm --singles preserves the program",
  "With --singles the emitted one-command lines have the same effect as the original line.",
  "every file", "all programs", [NO+":write"])
p("The default dialect can be changed",
  "After set_default(name), get_default() returns name.",
  "every name", "all names", [DI+":set_default", DI+":get_default"])
# ------------------------------------------------------------------ the class table against its documentation
G_ = "src/pygcode/gcodes.py"
p("Words mean what the documentation says",
  "A constructed word selects a class exactly when the code tables in the comments of gcodes.py give that word that meaning.",
  "every word with any value (not only the listed codes)", "infinitely many words must select nothing", [G_+":word_gcode_class", G_+":386-1271"])
p("Gcodes of a block run in the documented order of execution",
  "When two gcodes are sorted for execution, one whose documented stage (gcodes.py:110-137) is lower never comes after one whose stage is higher.",
  "every list of gcodes", "all combinations of gcodes", [G_+":GCode.__lt__", G_+":110-137"])
p("Modal groups are the documented ones",
  "Every word the table of modal groups (gcodes.py:45-71) lists has a class in that modal group, and every word listed as non-modal has a class without modal group (G80 excepted, as its class documents).",
  "every word in the listed ranges", "all values", [G_+":45-71"])
p("Equal gcodes are the same command",
  "Two gcodes compare equal exactly when they have the same word and the same parameter words, whatever the order the parameters were given in; equal gcodes print the same and do the same to a machine.",
  "every pair of gcodes", "all pairs", [G_+":GCode.__eq__"])
T_ = "src/pygcode/transform.py"
p("A plain drilling cycle drills each hole once",
  "Expanding a drilling cycle without pecks (G81, G85, ...) gives exactly one feed move per hole.",
  "every cycle, every start, both distance modes", "rounding makes the outcome depend on the particular depths", [T_+":simplify_canned_cycle"])
p("Arcs can be linearized with the default arguments",
  "linearize_arc(arc, start) without further arguments produces moves for every arc whose parameters make sense.",
  "every arc and start", "the tests always pass a method", [T_+":linearize_arc", T_+":DEFAULT_LA_METHOD"])
p("Arc parameters that make no sense are reported as such",
  "An arc without end point, with both or neither of a radius and a centre, with a zero radius, or with a radius too small for its ends, raises GCodeParameterError; every other arc has a circle.",
  "every arc gcode, plane, start, mode", "all combinations of parameters", [T_+":linearize_arc", "src/pygcode/gcodes.py:GCodeArcMove.assert_params"])
p("Arcs are divided into as few equal pieces as the error allows",
  "With fewer wedges of equal angle than linearize_arc uses, the lines of the chosen method would be farther from the circle than max_error allows.",
  "every arc in the XY plane, every error, each method", "all geometries", [T_+":ArcLinearizeMethod.wedge_count", T_+":ArcLinearizeInside", T_+":ArcLinearizeOutside", T_+":ArcLinearizeMid"])
p("Range arguments mean what the help says",
  "pygcode-crop accepts exactly the ranges its help text describes (first and last conditions, each a comma-separated list of variable, comparison, number); the conditions it then tests are those written; every other text is refused with ArgumentTypeError.",
  "every text on one line", "infinitely many texts", [CR+":range_type", CR+":_cmp"])
p("The final actions go where they say, safely",
  "With --zero_xy, --zero_z, --spindle_off, pygcode-norm's output, run on the machine, first does what the program did, then ends at X0 Y0 / Z0 / with the spindle off as asked, changes nothing else, and moves in X and Y only at the safety height: the one given, else one no lower than any Z the program reached.",
  "every program file, all combinations of the options, every height", "all programs", [NO+":359-377", NO+":write"])

p("--full completes every line, and the program stays the same",
  "pygcode-norm --full prints each line with the gcodes in the order of execution and the leftover words put with the motion command in force; read back, no line has leftover words, what each does is independent of the motion mode before it, comments and macros are kept and the machine is in the same state after every line.",
  "every program file, with every combination of --rm_comments, --rm_blanks, --rm_whitespace and every machine mode", "all programs", [NO+":write", NO+":352-357", "src/pygcode/machine.py:Machine.block_modal_gcodes"])
p("Removing comments, blank lines and whitespace removes nothing else",
  "With --rm_comments, --rm_blanks, --rm_whitespace (any combination) pygcode-norm prints the same gcodes, leftover words and macros line by line; comments are gone / no line is empty / the gcodes are printed without blanks exactly as asked; running the output puts the machine in the same states.",
  "every program file, all combinations", "all programs", [NO+":write"])
p("--rm_gcodes removes the named gcodes and nothing else",
  "With --rm_gcodes pygcode-norm prints every line without exactly those gcodes whose word is given (and their parameters); all others, leftover words, comments and macros stay.",
  "every program file, every list of words, in combination with --full, --rm_comments, --rm_blanks, --rm_whitespace", "all programs", [NO+":write", NO+":word_list_type"])
p("--arc_lin_method means what its help says",
  "pygcode-norm --arc_lin_method accepts exactly i, o, m, or two of them separated by a comma (and nothing, the default); clockwise arcs are then linearized by the first, counter-clockwise ones by the second or, if there is one only, the first. Every other text is refused with ArgumentTypeError.",
  "every text", "infinitely many texts", [NO+":arc_lin_method_type"])
p("Lists of words are read element by element",
  "--canned_codes and --rm_gcodes take a list separated by commas with optional blanks around them; the list is accepted exactly when every element is a word, and then contains those words. The default list, printed from the words of all canned cycles, is read back as those words.",
  "every text, every list of words", "infinitely many texts", [NO+":word_list_type", NO+":DEFAULT_CANNED_CODES"])

p("--canned_expand and --arc_linearize replace commands by moves that lead to the same place",
  "pygcode-norm with --canned_expand / --arc_linearize prints every line without such a command as it was; a line with one is printed as the gcodes before it, moves, the gcodes after it and its comment. None of the commands is left in the output, and the machine running it passes through the places of the replacing moves and is, after every line of the original, in the same place and in the same modes (that of motion aside).",
  "every program file, every list of --canned_codes naming cycles, every machine mode", "all programs", [NO+":302-357", NO+":split_and_process", "src/pygcode/transform.py:simplify_canned_cycle", "src/pygcode/utils.py:omit_redundant_modes"])

p("--rm_invalid_modal removes what is not understood, and only that",
  "pygcode-norm --rm_invalid_modal never fails because of leftover words the motion mode does not take; it prints every line with its gcodes, the leftover words that are understood, its comment and macro. A machine that ignores nothing accepts the output and goes through the states the script's machine went through; a file that can be read without the option comes out the same.",
  "every program file, every machine mode", "all programs", [NO+":218-221", NO+":234", NO+":316-317", "src/pygcode/machine.py:Machine.clean_block", "src/pygcode/machine.py:Machine.modal_gcode"])

p("A linearized arc ends where the arc ends, in floating point too",
  "linearize_arc generates only G1 with X, Y and Z; in absolute mode the last one names exactly the end of the arc (its words, or the start on axes without one), whatever the functions of math return; in incremental mode all increments are thousandths and their sum differs from what the arc leads by at most half a thousandth and the rounding errors of the additions, however many lines there are.",
  "every arc, start, plane, method, mode and precision (incrementally: coordinates up to 524287 on the way), every accurate rounding (binary64 and exact arithmetic among them), every sqrt, acos, cos, tan, atan2, % and rotation", "all arcs, all floats; the errors add up over the lines", [T_+":linearize_arc", T_+":ArcLinearizeMethod.iter_vertices", "src/pygcode/utils.py:plane_projection"])

p("linearize_arc does not stop with math domain errors",
  "Given an arc, a position, one of the planes XY, ZX, YZ and a positive precision, linearize_arc in floating point either generates all its moves, or reports words that make no sense (before generating anything), or raises GCodeParameterError for an end out of reach or ZeroDivisionError; rounding never drives math.sqrt or math.acos out of their domain.",
  "every arc, start, plane, method, mode and precision, every accurate monotone rounding (binary64 among them), every non-negative sqrt, every acos, cos, tan, atan2, % and rotation",
  "all arcs, all floats", [T_+":linearize_arc", T_+":ArcLinearizeMethod", G_+":GCodeArcMove.assert_params"])

p("pygcode-crop goes into place up, over and down",
  "In front of the kept lines pygcode-crop prints three rapid moves: from where the machine starts, along the normal of the plane in force (Z without one) to the largest coordinate any of the removed gcodes led to, then at this height to the other coordinates of the place where the kept lines start, then down to this place. Nothing printed before these moves the machine.",
  "every program file, every range, every plane", "all programs; the height depends on every gcode removed", [CR+":206-236", "src/pygcode/machine.py:Machine.abs_pos", "src/pygcode/machine.py:Machine.__copy__"])

p("In floating point too, linearized arcs stay within the precision of the arc",
  "In the XY plane and absolute mode, with rounding and functions of math that are right up to a relative error u, the moves linearize_arc generates in floating point go around the centre the arc is given with (or the one its radius and direction determine), in the arc's direction and by less than a full turn, through corners that follow each other along the arc and rise evenly from its start to its end; no point on a move is further inside or outside the circle than the method and the precision allow, but for 1500 u M, where M bounds the coordinates and radii. In incremental mode, where moves are rounded to thousandths, the points they lead through stay that close too, but for half a thousandth per coordinate and the errors of adding up. In each of the planes XY, ZX and YZ the centre and the radius the function works with are those the words of the arc ask for, up to the rounding errors.",
  "every arc whose ends are at least 2000 u M apart, every precision of at least 2000 u M, every method, every u up to a millionth, every arithmetic and library of functions that is right up to u (binary64 among them)",
  "all arcs, all floats; errors of circle, angle, number of lines, rotation and height add up", [T_+":linearize_arc", T_+":ArcLinearizeMethod", T_+":ArcLinearizeInside", T_+":ArcLinearizeOutside", T_+":ArcLinearizeMid", "src/pygcode/utils.py:plane_projection"])

p("pygcode-norm --arc_linearize prints paths that stay within the precision of the arcs",
  "In the program pygcode-norm --arc_linearize prints, read back and executed, no arc is left; where there was an arc of ordinary size in the XY plane and absolute mode, the machine is at its start before the moves that replace it, passes through points that follow each other along the arc, in its direction, by less than a full turn and evenly up or down, and ends in its end; no point on the way is further from the circle than the chosen method and --arc_precision allow, but for the errors of floating point (1500 u M) and of printing three decimals (half a thousandth, from 1000 on five digits, per coordinate).",
  "every program file, every method and precision, every arithmetic and library of functions right up to u (binary64 among them)",
  "all programs; the moves depend on modes and positions reached by everything before, and are printed and read back", [NO+":322-335", T_+":linearize_arc", "src/pygcode/words.py:Word.value_str"])

p("pygcode-norm --canned_expand prints drilling that is safe and complete, in floating point",
  "In the program pygcode-norm --canned_expand prints (with or without --arc_linearize), read back and executed, no cycle is left; where there was a drilling cycle in absolute mode, G17 and G98, with words that print without loss and heights up to 998, the moves that replace it, as they are printed with three decimals and read again, are rapid only where the hole is free, sideways not below the retract height, feed only down, over the holes and never below their bottom; every hole is drilled to its bottom and the tool ends at the height it came from. After each line of the program both machines are in the same place and modes.",
  "every program file, every cycle G73, G81, G83, G85, G89, G76, every Q, L and number of pecks, every arithmetic whose rounding is accurate, monotone, idempotent and odd (binary64 and exact arithmetic among them)",
  "all programs; the heights of the pecks are added up in floating point and then rounded to three decimals, so that a clearance may come out on either side of the depth reached", [NO+":336-345", T_+":simplify_canned_cycle", "src/pygcode/words.py:Word.value_str"])

p("The program pygcode-norm prints differs from the program read only by the decimals that printing loses",
  "Without options, on files whose words stay apart when printed and whose numbers have any number of decimals, pygcode-norm prints a program that can be read and executed; line by line it has the same gcodes, with the same words up to the numbers read where the original ones were printed, the same comments and macros; and after each line the machine has the same modes, and its position and recorded range are off by at most one unit of error (half a thousandth, from 1000 on five digits) plus one for every incremental move so far: errors do not add up in absolute mode.",
  "every program file, every bound M up to 999999 on its coordinates, every accurate, monotone, idempotent rounding (binary64 among them)",
  "all programs; the position after a line depends on every line before, and each number is printed, read and added in floating point", [NO+":352-357", "src/pygcode/words.py:Word.value_str", "src/pygcode/machine.py:Machine.process_gcodes", "src/pygcode/machine.py:Machine.move_to"])

p("A program cut by pygcode-crop differs from the lines kept only by the decimals that printing loses",
  "With numbers of any number of decimals: in front of the kept lines pygcode-crop prints the modes and three rapid moves that lift the tool to within one unit of error (half a thousandth, from 1000 on five digits) of the largest coordinate reached, move it over the place where the kept lines start and lower it to within one unit of error of this place; then come the kept lines, with the same gcodes up to the numbers read where the original ones were printed, and after each of them the machine has the same modes and is off by at most one unit of error plus one for every incremental move among the kept lines so far.",
  "every program file and range where the lines removed leave the machine in absolute mode, the planes XY, ZX or YZ, without canned cycle and G96 (what C71 shows the preamble cannot restore), every bound M up to 999999 on the coordinates, every accurate, monotone, idempotent rounding (binary64 among them)",
  "all programs; where the kept lines start, the modes and the height depend on every line removed, and are printed, read and added in floating point", [CR+":196-240", "src/pygcode/machine.py:Mode.__str__", "src/pygcode/words.py:Word.value_str", "src/pygcode/machine.py:Machine.process_gcodes"])

p("Assigning to a parameter of a gcode changes that gcode and nothing else",
  "After reading lines, processing them with a machine, clearing its modes and assigning parameters in any order: assigning a parameter of one gcode of one line (g.X = 5) changes that parameter of that gcode only. The other gcodes of the line, the words of the line with other letters, every other line and the modes the machine remembers stay as they are.",
  "every sequence of reading, processing, clearing and assigning, every line, gcode, letter and value, every arithmetic",
  "Word objects are shared: between a line's list of words and its gcodes, and, through modal_copy, between a gcode and the machine that processed it; whether an assignment shows elsewhere depends on everything done before",
  ["src/pygcode/gcodes.py:GCode.__setattr__", "src/pygcode/gcodes.py:GCode.modal_copy", "src/pygcode/gcodes.py:words2gcodes", "src/pygcode/machine.py:Mode.set_mode", "src/pygcode/machine.py:Machine.modal_gcode", "src/pygcode/block.py:Block.__init__"])

p("What a block says about itself is what its commands do",
  "block.X is a word with that letter that a command of the block or a bare parameter is made of, and the value the command uses; it is None exactly if there is none. bool(block), len(block) > 0, str(block) != '' and 'the text is not blank' are the same, and len(block) is the number of gcodes a machine runs for the block.",
  "every text of code points 0..255, every letter, every machine, every arithmetic",
  "all texts, all machines; __getattr__, __len__, __bool__, __str__ and the machine each look at a different list",
  ["src/pygcode/block.py:Block.__getattr__", "src/pygcode/block.py:Block.__len__", "src/pygcode/block.py:Block.__bool__", "src/pygcode/block.py:Block.__str__", "src/pygcode/machine.py:Machine.block_modal_gcodes"])

p("Looking at a position does not change it",
  "Reading attributes, words or the vector of a position, comparing it, adding, subtracting, scaling or bounding it changes neither operand: every later statement of the program sees what it would have seen before. Only an assignment to the position itself changes it, in that one coordinate.",
  "every sequence of constructing, copying, reading, assigning, comparing, adding, subtracting, scaling and bounding positions of any axes and units, every arithmetic",
  "all programs on positions; a lookup in a defaultdict may insert a key, and what equality and bounds see depends on the keys",
  ["src/pygcode/machine.py:Position.__init__", "src/pygcode/machine.py:Position.__getattr__", "src/pygcode/machine.py:Position.__eq__", "src/pygcode/machine.py:Position.__add__", "src/pygcode/machine.py:Position._cmp", "src/pygcode/machine.py:Position.vector"])

p("Gcodes made in code and printed are read back as the same commands",
  "Take any gcode made in code: by its class and keyword parameters, with a number (GCodeFeedRate(100)), with a word that means the class, by assigning parameters or by modal_copy. Its str(), alone on a line, is read as exactly one gcode, of the same class, equal up to the decimals printing drops, with no leftover words, comment or macro; without dropped decimals the two are equal, and a program written by printing gcodes one per line does to a machine what the gcodes do.",
  "every class, every parameter, every history of assignments and copies, every program, every machine, every accurate rounding (binary64 and exact arithmetic among them)",
  "all classes, all numbers, all programs; whether a text is read as the class it was made with depends on the class table, the printing of numbers and how words are grouped",
  [G_+":GCode.__init__", G_+":GCode._default_word", G_+":GCode.__str__", G_+":GCode.add_parameter", G_+":GCode.__setattr__", G_+":GCode.modal_copy", G_+":text2gcodes", "src/pygcode/machine.py:Machine.process_str"])

p("The pieces of a program cut by pygcode-crop, run one after the other, do what the program does",
  "Cut a program into any number of pieces with pygcode-crop (\":4\", \"4:9\", \"9:\") and run the printed files one after the other on one machine. Every line of the program is in exactly one piece, in order; each of them leaves the machine in the place and with the modes it left it in the program; between two pieces the tool is lifted to the highest place reached so far and put back exactly where it was.",
  "every program, every number of pieces and places to cut, every accurate rounding (binary64 and exact arithmetic among them)",
  "all programs and all ways to cut them; the state at the end of one piece depends on everything before",
  ["scripts/pygcode-crop:range_type", "scripts/pygcode-crop", "src/pygcode/machine.py:Machine.process_block", "src/pygcode/machine.py:Mode.__str__"])

p("Reading and running a program stops only for stated reasons, each with its own error",
  "A line is refused exactly when it is not one line (AttributeError), is not made of words (GCodeWordStrError), gives a parameter twice (GCodeParameterError) or has conflicting commands (AssertionError). Running it stops exactly when a word without a gcode is not one the motion mode takes (MachineInvalidState), or a canned cycle comes that cannot be done: no plane selected (AttributeError), or a return to R without an R or without a normal (TypeError) or along an axis the machine lacks (MachineInvalidAxis). So a program without G99 whose lines are read runs to its end on the default machine unless it has such a word, and always if such words are ignored.",
  "every text, every reachable machine, every program of any length",
  "all texts and all machine states; that no other exception can come out cannot be seen from examples",
  ["src/pygcode/line.py:Line.__init__", "src/pygcode/block.py:Block._assert_gcodes", "src/pygcode/machine.py:Machine.process_block", "src/pygcode/machine.py:Machine.modal_gcode", "src/pygcode/machine.py:Machine.move_to", "src/pygcode/gcodes.py:GCodeCannedCycle._process"])

p("pygcode-norm finishes, unless a pecking cycle makes no progress",
  "Whatever the file and the options, pygcode-norm ends (normally or with an exception) when --canned_expand is not given, with or without --arc_linearize. With --canned_expand it ends in exact arithmetic unless some Q of the program is zero; with rounded numbers it ends when each Q is a thousandth or more, each R and Z is within a million units, no hole is shallower than a thousandth and G91 is not used. What it prints does not depend on how many turns its loops are allowed, once they are enough. It never ends when it comes to a peck drilling cycle with Q0, or with a Q that is lost in rounding at the height R.",
  "every file, every option, every rounding arithmetic with the stated laws",
  "a run that does not end cannot be told from a long one by running it, and files and options are without bound",
  ["scripts/pygcode-norm", "src/pygcode/transform.py:simplify_canned_cycle", "src/pygcode/transform.py:linearize_arc"])

p("The same program run from another place",
  "Two machines that differ only in where they are (and have been) accept the same program: they stop at the same line with the same exception or not at all, and differ afterwards at most in where they are. An axis on which they agree stays agreed, with any rounding. In exact arithmetic they are afterwards, on each axis, as far apart as before or together; a program in incremental mode without G90 keeps them exactly as far apart; in absolute mode, a move that names an axis brings them together on it, with any rounding.",
  "every pair of reachable machines that differ only in position, every program text, every rounding arithmetic (exact arithmetic where distances are compared)",
  "programs, positions and coordinate offsets are without bound; the relation is between two runs",
  ["src/pygcode/machine.py:Machine.move_to", "src/pygcode/machine.py:Machine.process_str", "src/pygcode/gcodes.py:GCodeCannedCycle._process"])

p("pygcode-norm run again on what it printed changes nothing more",
  "Run a second time with the same options on what it printed, pygcode-norm prints the same lines: with --full, --rm_comments, --rm_blanks, --rm_whitespace in any combination, and with --singles, the second run ends well and prints exactly what it was given; with --rm_gcodes it prints the same if it ends well. With --canned_expand and --arc_linearize the second run replaces nothing: a program without arcs and named cycles, read by a machine that does not start in such a mode, is printed as the script prints it without options, whatever the precision, the method and the number of steps allowed, and the output of a first run is such a program.",
  "every program that can be read and run and whose lines print without loss (C72, C85, C90), every combination of the options, every accurate arithmetic",
  "programs are without bound; that the normal form is a fixed point is a statement about all of them",
  ["scripts/pygcode-norm:write", "scripts/pygcode-norm:split_and_process", "src/pygcode/transform.py:omit_redundant_modes"])

p("In absolute mode a line sent twice does what it does once",
  "If a line has been processed and leaves the machine in absolute distance mode, processing the same line again succeeds and changes nothing that can be read off the machine: no mode, no coordinate system, no axis of the position and neither end of the recorded range. Moves on the line use the distance mode the line ends with, because modes are set before motion, and words without a command are read the second time as they were the first time.",
  "every line that can be read, every machine reachable by any history, every arithmetic whose rounding is idempotent",
  "lines, machine histories and numbers are without bound; resending a line whose acknowledgement was lost relies on this for all of them",
  ["src/pygcode/machine.py:Machine.process_gcodes", "src/pygcode/machine.py:Machine.modal_gcode", "src/pygcode/machine.py:Machine.move_to"])

p("X and Y are treated alike",
  "Exchange every x and y in a program (and in the machine it runs on): the run goes the same way, errors included, and the position, the recorded range and the offsets are those of the original run with X and Y exchanged. Only the planes XZ and YZ, which single out one of the two, are excepted.",
  "every list of texts whatsoever (readable or not) that selects neither of these planes, every machine reachable by any history, every arithmetic",
  "programs and numbers are without bound, and it compares two runs; a slip that mixes up two axes in one branch is only seen if a test takes that branch with unequal values",
  ["src/pygcode/machine.py:Machine.process_gcodes", "src/pygcode/machine.py:Machine.move_to", "src/pygcode/machine.py:Position", "src/pygcode/gcodes.py:words2gcodes", "src/pygcode/words.py:text2words"])

out = os.path.join(os.path.dirname(os.path.abspath(__file__)), '..', 'properties.jsonl')
with open(out, 'w') as f:
    for x in P:
        f.write(json.dumps(x) + "\n")
print(len(P))
