{"id": "C01", "title": "Tokeniser follows one grammar, always terminates, fails only with GCodeWordStrError", "statement": "text2words(t) always terminates; it returns a word list exactly when t can be read, left to right, as: skip any non-letter non-newline characters, a letter, then the longest value text that letter's value pattern allows, repeated, with only whitespace after the last value; the words returned are that reading (which is unique), and in every other case an exception is raised and nothing is returned.", "quantifier": "every text (string of code points below 256), any length", "why_tests_cant": "infinitely many texts; regex backtracking and index arithmetic must agree with the grammar on all of them", "anchors": ["src/pygcode/words.py:text2words", "src/pygcode/dialects/linuxcnc.py:REGEX_FLOAT", "src/pygcode/dialects/linuxcnc.py:REGEX_INT", "src/pygcode/dialects/linuxcnc.py:REGEX_POSITIVEINT", "src/pygcode/dialects/linuxcnc.py:REGEX_CODE", "src/pygcode/dialects/linuxcnc.py:WORD_MAP"]}
{"id": "C02", "title": "Freely spaced, any-case word sequences tokenise to those words", "statement": "For any sequence of words written as a letter (either case), optional blanks, and a numeral that is valid for the letter, separated by any amount of blanks (including none), text2words returns exactly these words, in order, with the numeral's value; nothing is lost, merged, split or reordered.", "quantifier": "every list of words, every spacing, every letter case", "why_tests_cant": "all lists of words and all spacings; adjacency without blanks ('G1X2Y-.5') is where tokenisers break", "anchors": ["src/pygcode/words.py:text2words", "src/pygcode/words.py:Word.__init__", "src/pygcode/dialects/linuxcnc.py:WORD_MAP"]}
{"id": "C03", "title": "Malformed text is rejected, never silently reinterpreted", "statement": "If a block text contains characters that are not part of any word (other than blanks), parsing raises an error.", "quantifier": "every text", "why_tests_cant": "needs every text with stray characters at every position", "anchors": ["src/pygcode/words.py:text2words"]}
{"id": "C04", "title": "Letter case does not matter", "statement": "Changing the case of letters in a block text does not change the words (or the error) text2words produces, as long as the text has no program-name (O) word.", "quantifier": "every text without the letter O", "why_tests_cant": "all texts", "anchors": ["src/pygcode/words.py:text2words", "src/pygcode/words.py:Word.__init__"]}
{"id": "C05", "title": "Whitespace clean-up by Block does not change the meaning of the text", "statement": "The words of Block(t) are those text2words(t) would produce on the uncleaned text: trimming and collapsing blanks never changes a word.", "quantifier": "every newline-free text", "why_tests_cant": "all texts and all blank patterns", "anchors": ["src/pygcode/block.py:Block.__init__", "src/pygcode/words.py:text2words"]}
{"id": "C06", "title": "A printed coordinate word reads back with a bounded error", "statement": "For a word with a float-valued letter and a value v with |v| < 10^6 (after rounding), str(word) is readable by text2words as a single word of the same letter, whose value differs from v by at most 0.0005 plus half a unit in the sixth significant digit; if v is a multiple of 0.001 with |v| < 1000, the value is exactly v.", "quantifier": "every float value in the range, every float letter", "why_tests_cant": "a continuum of values; formatting (%g, round) has many digit-count branches", "anchors": ["src/pygcode/words.py:Word.__str__", "src/pygcode/words.py:Word.value_str", "src/pygcode/dialects/linuxcnc.py:CLEAN_FLOAT", "src/pygcode/words.py:text2words"]}
{"id": "C07", "title": "Every printed word reads back as the same word", "statement": "For every word, text2words(str(word)) returns exactly one word with the same letter, and printing it again gives the same text.", "quantifier": "every word of every letter and every value", "why_tests_cant": "all values, including large ones where %g switches to exponent notation", "anchors": ["src/pygcode/words.py:Word.__str__", "src/pygcode/dialects/linuxcnc.py:CLEAN_FLOAT", "src/pygcode/dialects/linuxcnc.py:CLEAN_INT", "src/pygcode/dialects/linuxcnc.py:CLEAN_CODE"]}
{"id": "C08", "title": "G/M code words and N/L integer words survive printing", "statement": "For every G or M code k/10 with 0 <= k < 10^6 and every N or L integer 0 <= n < 10^6, str(word) tokenises back to an equal word; codes below 10 are printed with a leading zero.", "quantifier": "every code / integer in the range", "why_tests_cant": "two million values and the leading-zero rule", "anchors": ["src/pygcode/dialects/linuxcnc.py:_clean_codestr", "src/pygcode/dialects/linuxcnc.py:CLEAN_INT", "src/pygcode/words.py:Word.__eq__"]}
{"id": "C09", "title": "Word equality, hashing and ordering are coherent", "statement": "Word equality is an equivalence relation, equal words have equal hashes, != is its negation, and <, <=, >, >= are one total order on (letter, value) consistent with equality.", "quantifier": "all pairs and triples of words built by the constructor", "why_tests_cant": "all triples of words", "anchors": ["src/pygcode/words.py:Word.__eq__", "src/pygcode/words.py:Word.__hash__", "src/pygcode/words.py:Word.__lt__", "src/pygcode/words.py:Word.__le__", "src/pygcode/words.py:Word.__gt__", "src/pygcode/words.py:Word.__ge__"]}
{"id": "C10", "title": "words2dict keeps exactly the last value of each allowed letter", "statement": "words2dict(ws, letters) has a key exactly for the letters that occur in ws and are allowed, and the value is that of the last such word.", "quantifier": "every word list and every white-list", "why_tests_cant": "all lists", "anchors": ["src/pygcode/words.py:words2dict"]}
{"id": "C11", "title": "str2word accepts exactly the texts with at most one word", "statement": "str2word(t) returns the word of t when text2words(t) gives one word, None when it gives none, raises GCodeWordStrError when it gives several, and otherwise raises what text2words raises.", "quantifier": "every text", "why_tests_cant": "all texts", "anchors": ["src/pygcode/words.py:str2word"]}
{"id": "C12", "title": "split_line: semicolon comments", "statement": "If a (newline-free) line contains ';', the block text is what precedes the first ';' without its trailing blanks and the comment is what follows it without leading blanks; if it contains no ';' and no closed bracket pair, the text is returned unchanged with no comment.", "quantifier": "every newline-free line", "why_tests_cant": "all lines", "anchors": ["src/pygcode/comment.py:split_line", "src/pygcode/comment.py:CommentSemicolon"]}
{"id": "C13", "title": "split_line: bracket comments", "statement": "In a line without ';', every maximal '(...)' up to its first ')' is removed, the block text is the concatenation of what is outside, in order, and the comment text is the bracket contents joined by '. '.", "quantifier": "every line without ';', any number of comments", "why_tests_cant": "all lines, any number of brackets", "anchors": ["src/pygcode/comment.py:split_line", "src/pygcode/comment.py:CommentBrackets"]}
{"id": "C14", "title": "Comment contents never influence the machine code of a line", "statement": "Replacing the text inside a comment by any other comment text leaves the line's block (words, gcodes, modal parameters) unchanged.", "quantifier": "every line with a comment, every replacement text", "why_tests_cant": "quantifies over all pairs of comment texts", "anchors": ["src/pygcode/comment.py:split_line", "src/pygcode/line.py:Line.__init__"]}
{"id": "C15", "title": "Line splits its text without loss", "statement": "For every text whose newlines are all at its end, Line(text) splits it as block-and-comment part, then a macro starting at the first '%' (if any), then trailing whitespace, and these concatenate back to the text; any other text raises instead of being partly read.", "quantifier": "every text", "why_tests_cant": "all texts", "anchors": ["src/pygcode/line.py:Line.line_regex", "src/pygcode/line.py:Line.__init__"]}
{"id": "C16", "title": "Printing a line is a normal form", "statement": "str(Line(str(Line(t)))) == str(Line(t)) for every readable line t.", "quantifier": "every readable line", "why_tests_cant": "all lines", "anchors": ["src/pygcode/line.py:Line.__str__", "src/pygcode/block.py:Block.__str__", "src/pygcode/comment.py:CommentSemicolon.__str__", "src/pygcode/comment.py:CommentBrackets.__str__"]}
{"id": "C17", "title": "Every word selects at most one gcode class", "statement": "No two gcode classes claim the same word: the class a word maps to does not depend on class-table order, and words whose letter is not one of G M F S T N O never map to a class.", "quantifier": "every word (all letters, all values)", "why_tests_cant": "infinitely many word values; the test only cross-checks the key words against the matcher functions", "anchors": ["src/pygcode/gcodes.py:build_maps", "src/pygcode/gcodes.py:word_gcode_class", "src/pygcode/gcodes.py:_subclasses"]}
{"id": "C18", "title": "words2gcodes loses and invents nothing", "statement": "When words2gcodes(ws) succeeds, the words of the returned gcodes, all their parameter words, and the unused words together are a permutation of ws; gcodes and unused words keep their relative order.", "quantifier": "every word list", "why_tests_cant": "all word lists", "anchors": ["src/pygcode/gcodes.py:words2gcodes"]}
{"id": "C19", "title": "Parameters attach to the nearest preceding gcode that accepts them", "statement": "A word is a parameter of the last preceding gcode of the result whose class accepts its letter; a word is itself a gcode exactly when it maps to a class and no gcode before it accepts its letter; all other words are returned as unused.", "quantifier": "every word list", "why_tests_cant": "all word lists", "anchors": ["src/pygcode/gcodes.py:words2gcodes"]}
{"id": "C20", "title": "Gcode parameters are legal and unique", "statement": "Every gcode that can be constructed (from words, from text, by keyword, or by attribute assignment) has only parameters its class allows, at most one per letter, each stored under its own letter; words2gcodes raises GCodeParameterError exactly when some gcode would get a letter twice.", "quantifier": "every word list and every sequence of parameter additions / assignments", "why_tests_cant": "all construction histories", "anchors": ["src/pygcode/gcodes.py:GCode.__init__", "src/pygcode/gcodes.py:GCode.add_parameter", "src/pygcode/gcodes.py:GCode.__setattr__", "src/pygcode/gcodes.py:words2gcodes"]}
{"id": "C21", "title": "Flattening gcodes to words and regrouping gives the same gcodes", "statement": "For any gcodes produced by words2gcodes, listing each gcode's word followed by its parameters (in any order within the gcode) and grouping again gives the same gcodes with the same parameters and no unused words.", "quantifier": "every word list", "why_tests_cant": "all word lists", "anchors": ["src/pygcode/gcodes.py:words2gcodes", "src/pygcode/gcodes.py:GCode.__str__"]}
{"id": "C22", "title": "text2gcodes accepts exactly fully-formed text", "statement": "text2gcodes(t) returns gcodes exactly when every word of t is a gcode or a parameter of one; otherwise it raises.", "quantifier": "every text", "why_tests_cant": "all texts", "anchors": ["src/pygcode/gcodes.py:text2gcodes"]}
{"id": "C23", "title": "A verified block has no conflicting gcodes", "statement": "Block(t) with verification succeeds only if no two of its gcodes have the same word or the same (non-empty) modal group, and verification rejects no other block.", "quantifier": "every text", "why_tests_cant": "all gcode lists", "anchors": ["src/pygcode/block.py:Block._assert_gcodes"]}
{"id": "C24", "title": "Printing a block preserves its meaning", "statement": "Block(str(b)) has the same gcodes, parameters and modal parameters as b.", "quantifier": "every parsed block whose words survive printing", "why_tests_cant": "all blocks", "anchors": ["src/pygcode/block.py:Block.__str__", "src/pygcode/gcodes.py:GCode.__str__"]}
{"id": "C25", "title": "Gcodes run in execution order, ties in written order", "statement": "The order in which process_gcodes executes gcodes is a permutation of the given ones, never decreasing in execution order, and gcodes of equal execution order keep their written order; it is the only such order.", "quantifier": "every gcode list", "why_tests_cant": "all lists", "anchors": ["src/pygcode/machine.py:Machine.process_gcodes", "src/pygcode/gcodes.py:GCode.__lt__"]}
{"id": "C26", "title": "split_gcodes splits the sorted list at the first match", "statement": "The three lists concatenate to the (sorted) input; the first contains no instance of the class; the second is the first instance or empty; the third is empty when the second is; with sort_list=False the input order is kept.", "quantifier": "every gcode list and class", "why_tests_cant": "all lists", "anchors": ["src/pygcode/gcodes.py:split_gcodes"]}
{"id": "C27", "title": "modal_copy keeps the word, the class and exactly the modal parameters", "statement": "modal_copy never fails, keeps class and word, keeps a parameter if and only if its letter is in the class's modal letters, and is idempotent.", "quantifier": "every gcode", "why_tests_cant": "all parameter dictionaries", "anchors": ["src/pygcode/gcodes.py:GCode.modal_copy"]}
{"id": "C28", "title": "Gcode attributes behave like a record", "statement": "Reading an allowed parameter letter gives its value or None; assigning a letter makes it read back as the assigned value and leaves every other parameter unchanged; assigning a letter the class does not allow never changes the parameters.", "quantifier": "every gcode, letter and value", "why_tests_cant": "all assignment histories", "anchors": ["src/pygcode/gcodes.py:GCode.__getattr__", "src/pygcode/gcodes.py:GCode.__setattr__", "src/pygcode/gcodes.py:GCode.get_param_dict"]}
{"id": "C29", "title": "A printed gcode is its word followed by its parameters in letter order", "statement": "str(gcode) is the word (or the same number of blanks when the word is suppressed) followed by every parameter once, in increasing letter order; suppressing the word changes no parameter.", "quantifier": "every gcode", "why_tests_cant": "all gcodes", "anchors": ["src/pygcode/gcodes.py:GCode.__str__"]}
{"id": "C30", "title": "A modal group only ever holds a gcode of that group", "statement": "After any history of gcodes, set_mode calls and mode assignments, the gcode stored for a modal group belongs to that group and carries only its modal parameters.", "quantifier": "every machine history", "why_tests_cant": "all histories", "anchors": ["src/pygcode/machine.py:Mode.set_mode", "src/pygcode/machine.py:Mode.__setattr__", "src/pygcode/gcodes.py:GCode._process_mode"]}
{"id": "C31", "title": "The active mode of a group is that of the last gcode processed in that group", "statement": "For every modal group other than motion, the mode after any successful program equals the modal copy of the last processed gcode of the group, or the initial mode if there is none; for motion the same holds with G80 clearing it.", "quantifier": "every program (list of blocks)", "why_tests_cant": "all histories", "anchors": ["src/pygcode/machine.py:Machine.process_gcodes", "src/pygcode/machine.py:Mode.set_mode", "src/pygcode/gcodes.py:GCodeCancelCannedCycle._process"]}
{"id": "C32", "title": "Setting one mode leaves the other groups alone", "statement": "Processing gcodes changes the mode of no group that none of them belongs to (G80 aside, which only clears motion).", "quantifier": "every gcode list, every machine", "why_tests_cant": "all states", "anchors": ["src/pygcode/machine.py:Mode.set_mode"]}
{"id": "C33", "title": "A machine's mode can be replayed from its mode gcodes", "statement": "Setting the gcodes listed by mode.gcodes on an empty mode reproduces the mode in every group.", "quantifier": "every reachable mode", "why_tests_cant": "all reachable modes", "anchors": ["src/pygcode/machine.py:Mode.gcodes", "src/pygcode/machine.py:Mode.set_mode"]}
{"id": "C34", "title": "A default machine starts in the documented mode", "statement": "A new Machine is at the origin in all axes, in rapid motion, absolute distance, XY plane, millimetres, coordinate system 1, with spindle and coolant off and F, S, T zero, and no mode in any other group.", "quantifier": "every modal group", "why_tests_cant": "stated for every modal-group number", "anchors": ["src/pygcode/machine.py:Mode.default_mode", "src/pygcode/machine.py:Mode.__init__", "src/pygcode/machine.py:Machine.__init__"]}
{"id": "C35", "title": "Position arithmetic is per-axis arithmetic", "statement": "For positions with the same axes and unit, + - * / act on each axis separately; in exact arithmetic (a+b)-b = a, a+b = b+a, (a+b)+c = a+(b+c), (a*s)/s = a for s != 0; operands are never modified and mismatched axes raise MachineInvalidAxis as documented.", "quantifier": "all positions, axis sets, scalars", "why_tests_cant": "all values", "anchors": ["src/pygcode/machine.py:Position.__add__", "src/pygcode/machine.py:Position.__sub__", "src/pygcode/machine.py:Position.__mul__", "src/pygcode/machine.py:Position.__div__"]}
{"id": "C36", "title": "Unit conversion is reversible and consistent", "statement": "Switching a position's unit multiplies every axis by 25.4 or 1/25.4, and switching back restores it; a position equals its converted copy, and equality is symmetric.", "quantifier": "all positions", "why_tests_cant": "all values", "anchors": ["src/pygcode/machine.py:Position.unit", "src/pygcode/machine.py:Position.__eq__", "src/pygcode/machine.py:UNIT_MAP"]}
{"id": "C37", "title": "Arithmetic on positions with different units is physically meaningful", "statement": "Adding or subtracting positions given in different units gives the physical sum or difference.", "quantifier": "all pairs of positions", "why_tests_cant": "all values and unit combinations", "anchors": ["src/pygcode/machine.py:Position.__add__", "src/pygcode/machine.py:Position.__sub__"]}
{"id": "C38", "title": "Position.min / max give the per-axis bounds", "statement": "On each axis of the first operand, Position.min(a,b) is the smaller and Position.max(a,b) the larger of the two coordinates (in a's unit).", "quantifier": "all pairs of positions", "why_tests_cant": "all values", "anchors": ["src/pygcode/machine.py:Position._cmp", "src/pygcode/machine.py:Position.min", "src/pygcode/machine.py:Position.max"]}
{"id": "C39", "title": "Axis attributes are independent and guarded", "statement": "Assigning an axis of a position reads back the value, changes no other axis, and assigning an axis the position does not have raises MachineInvalidAxis and changes nothing.", "quantifier": "all positions, axes, values, and all sequences of assignments", "why_tests_cant": "all histories", "anchors": ["src/pygcode/machine.py:Position.__setattr__", "src/pygcode/machine.py:Position.__getattr__", "src/pygcode/machine.py:Position.update"]}
{"id": "C40", "title": "Absolute moves put the named axes at the given values and leave the rest", "statement": "In absolute distance mode a motion gcode with coordinates makes pos equal to the given value on each named machine axis and unchanged on the others.", "quantifier": "every machine state, every motion gcode", "why_tests_cant": "all states and coordinates", "anchors": ["src/pygcode/machine.py:Machine.move_to", "src/pygcode/gcodes.py:GCodeMotion._process"]}
{"id": "C41", "title": "Incremental moves add the given values", "statement": "In incremental distance mode a motion gcode adds the given value to each named machine axis and leaves the others unchanged; a program of incremental moves ends at the start plus the sum of the increments.", "quantifier": "every machine state, every program", "why_tests_cant": "all histories", "anchors": ["src/pygcode/machine.py:Machine.move_to", "src/pygcode/gcodes.py:GCodeMotion._process"]}
{"id": "C42", "title": "Work and absolute coordinates are inverse to each other", "statement": "abs2work(work2abs(p)) == p and work2abs(abs2work(p)) == p, and assigning pos then reading it gives the assigned position, whatever offsets are active.", "quantifier": "all offsets, coordinate systems, positions", "why_tests_cant": "all values", "anchors": ["src/pygcode/machine.py:Machine.abs2work", "src/pygcode/machine.py:Machine.work2abs", "src/pygcode/machine.py:Machine.pos"]}
{"id": "C43", "title": "The recorded range is exactly the bounding box of the path", "statement": "After any program, abs_range_min / abs_range_max are, on every machine axis, the least / greatest value among the initial position and every position reached, so every reached position lies inside, and both bounds are attained.", "quantifier": "every program", "why_tests_cant": "all histories", "anchors": ["src/pygcode/machine.py:Machine._update_abs_range", "src/pygcode/machine.py:Machine.pos"]}
{"id": "C44", "title": "Only motion gcodes move the machine", "statement": "Processing a gcode that is not a motion or canned-cycle gcode never changes abs_pos nor the recorded range.", "quantifier": "every gcode, every machine", "why_tests_cant": "all states", "anchors": ["src/pygcode/gcodes.py:GCode.process", "src/pygcode/gcodes.py:GCode._process"]}
{"id": "C45", "title": "Selecting a coordinate system changes only the frame of reference", "statement": "G54..G59.3 select systems 1..9: abs_pos is unchanged and pos becomes abs_pos minus that system's offset and the temporary offset.", "quantifier": "every machine, all nine systems", "why_tests_cant": "all offsets", "anchors": ["src/pygcode/gcodes.py:GCodeSelectCoordinateSystem", "src/pygcode/machine.py:Machine.set_mode", "src/pygcode/machine.py:Machine.pos"]}
{"id": "C46", "title": "Bare parameters act like the full command in the current motion mode", "statement": "A block consisting only of parameters acts exactly like the same block preceded by the current motion word (for motion modes that retain no parameters).", "quantifier": "every machine, every parameter list", "why_tests_cant": "all states", "anchors": ["src/pygcode/machine.py:Machine.modal_gcode", "src/pygcode/machine.py:Machine.process_block"]}
{"id": "C47", "title": "Unassignable modal parameters are refused without side effects", "statement": "If some bare parameter cannot belong to the current motion mode (or there is none), process_block raises MachineInvalidState and the machine is unchanged; with ignore_invalid_modal the rest of the block is processed.", "quantifier": "every machine, every block", "why_tests_cant": "all states and blocks", "anchors": ["src/pygcode/machine.py:Machine.modal_gcode", "src/pygcode/machine.py:Machine.process_gcodes"]}
{"id": "C48", "title": "The order of words in a block does not matter to the machine", "statement": "Two blocks with the same words in different order leave the machine in the same state.", "quantifier": "every machine, every pair of permuted blocks", "why_tests_cant": "all permutations", "anchors": ["src/pygcode/machine.py:Machine.process_block", "src/pygcode/gcodes.py:words2gcodes"]}
{"id": "C49", "title": "Canned cycles end where documented", "statement": "In the XY plane a drilling cycle with loop count L (at least 1) leaves X, Y at the programmed position (absolute) or L times the increment further (incremental), Z unchanged under G98 (default) and at R under G99; the cycle never moves an axis it does not name.", "quantifier": "every machine, cycle, L", "why_tests_cant": "all L and coordinates", "anchors": ["src/pygcode/gcodes.py:GCodeCannedCycle._process"]}
{"id": "C50", "title": "G80 cancels the motion mode", "statement": "After a block containing G80 and no other motion gcode there is no motion mode and bare parameters are refused; with another motion gcode in the block that one is the mode.", "quantifier": "every machine and block", "why_tests_cant": "all states", "anchors": ["src/pygcode/gcodes.py:GCodeCancelCannedCycle._process", "src/pygcode/machine.py:Machine.modal_gcode"]}
{"id": "C51", "title": "Copying a machine gives an equal, independent machine", "statement": "copy(m) has the same pos, mode, coordinate system and offsets as m.", "quantifier": "every machine state", "why_tests_cant": "all states", "anchors": ["src/pygcode/machine.py:Machine.__copy__", "src/pygcode/machine.py:State.__copy__", "src/pygcode/machine.py:Mode.__copy__"]}
{"id": "C52", "title": "Switching length units keeps the physical position", "statement": "Processing G20 or G21 does not change where the machine is physically, and later coordinates are read in the new unit.", "quantifier": "every machine", "why_tests_cant": "all states", "anchors": ["src/pygcode/gcodes.py:GCodeUnit", "src/pygcode/machine.py:Machine.set_mode"]}
{"id": "C53", "title": "Offset and reference codes do not move the tool to their axis words", "statement": "A block 'G92 <axis words>' (and likewise G28, G30, G53 without motion) does not change abs_pos.", "quantifier": "every machine and block", "why_tests_cant": "all states", "anchors": ["src/pygcode/gcodes.py:GCodeCoordSystemOffset", "src/pygcode/gcodes.py:GCodeGotoPredefinedPosition", "src/pygcode/machine.py:Machine.process_block"]}
{"id": "C54", "title": "clean_block removes exactly the words that cannot be used", "statement": "After clean_block(b), processing b cannot fail because of unassignable modal parameters; the kept modal parameters are, in order, exactly those the current motion mode accepts (none if the block has its own motion or there is no motion mode).", "quantifier": "every machine and block", "why_tests_cant": "all states and blocks", "anchors": ["src/pygcode/machine.py:Machine.clean_block"]}
{"id": "C55", "title": "Processing a program is processing its gcodes one by one", "statement": "process_block on blocks equals processing, one gcode at a time, the execution-ordered gcodes of each block; in particular splitting a sorted block in two and processing the halves gives the same machine.", "quantifier": "every program and split", "why_tests_cant": "all histories", "anchors": ["src/pygcode/machine.py:Machine.process_gcodes", "src/pygcode/machine.py:Machine.process_block", "src/pygcode/machine.py:Machine.block_modal_gcodes"]}
{"id": "C56", "title": "Absolute-to-incremental conversion preserves the path", "statement": "Running the converted gcodes on a machine in incremental mode visits the same positions as running the originals in absolute mode (repeated positions aside), and no converted move is zero.", "quantifier": "every start position and list of rapid/linear moves", "why_tests_cant": "all move lists", "anchors": ["src/pygcode/gcodes.py:_gcodes_abs2rel"]}
{"id": "C57", "title": "Omitting redundant motion words preserves the program", "statement": "Reading the output of omit_redundant_modes modally (a suppressed word means the last motion word) gives back the same gcodes; only motion words equal to the active one are suppressed.", "quantifier": "every gcode list", "why_tests_cant": "all lists", "anchors": ["src/pygcode/utils.py:omit_redundant_modes"]}
{"id": "C58", "title": "Expanding a canned cycle ends where the machine model says the cycle ends", "statement": "Executing simplify_canned_cycle's output leaves the machine at the same position as processing the canned gcode itself.", "quantifier": "every cycle, start position, mode", "why_tests_cant": "all parameters", "anchors": ["src/pygcode/transform.py:simplify_canned_cycle", "src/pygcode/gcodes.py:GCodeCannedCycle._process"]}
{"id": "C59", "title": "Expanded drilling is safe", "statement": "No rapid move goes below material already drilled in the hole, no move goes below the programmed depth, the programmed depth is reached, sideways moves happen at or above the retract height.", "quantifier": "every drilling cycle", "why_tests_cant": "all parameters, any number of pecks", "anchors": ["src/pygcode/transform.py:simplify_canned_cycle"]}
{"id": "C60", "title": "Expansion of a peck cycle terminates", "statement": "simplify_canned_cycle always terminates, with ceil(depth/Q) pecks per hole.", "quantifier": "every cycle", "why_tests_cant": "termination for all values", "anchors": ["src/pygcode/transform.py:simplify_canned_cycle"]}
{"id": "C61", "title": "A linearized arc starts, ends and is connected", "statement": "The vertices produced for an arc start at the current position, each segment starts where the previous ended, and the last ends exactly at the programmed end point.", "quantifier": "every arc, plane, method, error bound", "why_tests_cant": "a continuum of arcs", "anchors": ["src/pygcode/transform.py:ArcLinearizeMethod.iter_vertices", "src/pygcode/transform.py:linearize_arc"]}
{"id": "C62", "title": "A linearized arc stays within the allowed error", "statement": "Every point of every segment is within max_error of the circle: inside it for the inside method, outside it for the outside method, and within max_error/2 either side for the mid method.", "quantifier": "every arc, error bound, every point of every segment", "why_tests_cant": "a continuum", "anchors": ["src/pygcode/transform.py:ArcLinearizeInside", "src/pygcode/transform.py:ArcLinearizeOutside", "src/pygcode/transform.py:ArcLinearizeMid", "src/pygcode/transform.py:ArcLinearizeMethod.iter_vertices"]}
{"id": "C63", "title": "The arc centre is right", "statement": "For R arcs the centre is at distance |R| from both ends and on the side that makes the arc shorter (R>0) or longer (R<0) than a half circle in the commanded direction; for IJK arcs whose ends are equidistant from the given centre and differ, the centre used is the given one.", "quantifier": "every arc", "why_tests_cant": "a continuum", "anchors": ["src/pygcode/transform.py:linearize_arc"]}
{"id": "C64", "title": "The swept angle is right in every plane", "statement": "In each of the planes G17, G18, G19, turning the start radius by the computed arc angle in the commanded direction gives the end radius.", "quantifier": "every arc and plane", "why_tests_cant": "a continuum", "anchors": ["src/pygcode/transform.py:linearize_arc", "src/pygcode/gcodes.py:GCodePlaneSelect.quat"]}
{"id": "C65", "title": "Full circles are linearized as full circles", "statement": "An IJK arc whose end equals its start produces a full turn around the given centre.", "quantifier": "every full-circle arc", "why_tests_cant": "a continuum", "anchors": ["src/pygcode/transform.py:linearize_arc"]}
{"id": "C66", "title": "Helical motion is proportional to the angle", "statement": "Along a linearized helical arc the coordinate along the plane normal advances in proportion to the angle swept, from the start height to the end height.", "quantifier": "every arc", "why_tests_cant": "a continuum", "anchors": ["src/pygcode/transform.py:ArcLinearizeMethod.iter_vertices"]}
{"id": "C67", "title": "Rounding errors do not accumulate in incremental arcs", "statement": "In incremental mode the running sum of the emitted rounded increments is, after every segment, within half a unit of the last decimal place of the exact vertex, however many segments there are.", "quantifier": "every vertex list, any length", "why_tests_cant": "unbounded number of segments", "anchors": ["src/pygcode/transform.py:linearize_arc"]}
{"id": "C68", "title": "Plane projection is the orthogonal projection", "statement": "plane_projection(v, n) is perpendicular to n, differs from v by a multiple of n, and is idempotent.", "quantifier": "every vector and non-zero normal", "why_tests_cant": "a continuum", "anchors": ["src/pygcode/utils.py:plane_projection"]}
{"id": "C69", "title": "quat2align / quat2coord_system align the vectors they promise to", "statement": "quat2align(a,b) rotates a onto b; quat2coord_system(o1,o2,a1,a2) rotates o1 onto a1 and o2 onto a2.", "quantifier": "every pair of (perpendicular) non-zero vectors", "why_tests_cant": "a continuum", "anchors": ["src/pygcode/utils.py:quat2align", "src/pygcode/utils.py:quat2coord_system"]}
{"id": "C70", "title": "Cropping keeps exactly the selected lines", "statement": "pygcode-crop outputs the lines from the first one satisfying the first condition up to, not including, the first one from there on (itself included) that satisfies the last condition, in order and each once; nothing else is printed but the lines that put the machine in place.", "quantifier": "every file and range", "why_tests_cant": "all files", "anchors": ["scripts/pygcode-crop"]}
{"id": "C71", "title": "Cropping reproduces the machine state before the first kept line", "statement": "Running the preamble printed by pygcode-crop puts a machine in the same position and mode as the removed part of the program did, so the kept lines do the same as in the original.", "quantifier": "every file and range", "why_tests_cant": "all programs", "anchors": ["scripts/pygcode-crop"]}
{"id": "C72", "title": "pygcode-norm without options preserves the program", "statement": "With no transformation options pygcode-norm's output has, line by line, the same gcodes, modal parameters, comment and macro as the input.", "quantifier": "every file", "why_tests_cant": "all files", "anchors": ["scripts/pygcode-norm"]}
{"id": "C73", "title": "pygcode-norm --singles preserves the program", "statement": "With --singles the emitted one-command lines have the same effect as the original line.", "quantifier": "every file", "why_tests_cant": "all programs", "anchors": ["scripts/pygcode-norm:write"]}
{"id": "C74", "title": "The default dialect can be changed", "statement": "After set_default(name), get_default() returns name.", "quantifier": "every name", "why_tests_cant": "all names", "anchors": ["src/pygcode/dialects/__init__.py:set_default", "src/pygcode/dialects/__init__.py:get_default"]}
{"id": "C75", "title": "Words mean what the documentation says", "statement": "A constructed word selects a class exactly when the code tables in the comments of gcodes.py give that word that meaning.", "quantifier": "every word with any value (not only the listed codes)", "why_tests_cant": "infinitely many words must select nothing", "anchors": ["src/pygcode/gcodes.py:word_gcode_class", "src/pygcode/gcodes.py:386-1271"]}
{"id": "C76", "title": "Gcodes of a block run in the documented order of execution", "statement": "When two gcodes are sorted for execution, one whose documented stage (gcodes.py:110-137) is lower never comes after one whose stage is higher.", "quantifier": "every list of gcodes", "why_tests_cant": "all combinations of gcodes", "anchors": ["src/pygcode/gcodes.py:GCode.__lt__", "src/pygcode/gcodes.py:110-137"]}
{"id": "C77", "title": "Modal groups are the documented ones", "statement": "Every word the table of modal groups (gcodes.py:45-71) lists has a class in that modal group, and every word listed as non-modal has a class without modal group (G80 excepted, as its class documents).", "quantifier": "every word in the listed ranges", "why_tests_cant": "all values", "anchors": ["src/pygcode/gcodes.py:45-71"]}
{"id": "C78", "title": "Equal gcodes are the same command", "statement": "Two gcodes compare equal exactly when they have the same word and the same parameter words, whatever the order the parameters were given in; equal gcodes print the same and do the same to a machine.", "quantifier": "every pair of gcodes", "why_tests_cant": "all pairs", "anchors": ["src/pygcode/gcodes.py:GCode.__eq__"]}
{"id": "C79", "title": "A plain drilling cycle drills each hole once", "statement": "Expanding a drilling cycle without pecks (G81, G85, ...) gives exactly one feed move per hole.", "quantifier": "every cycle, every start, both distance modes", "why_tests_cant": "rounding makes the outcome depend on the particular depths", "anchors": ["src/pygcode/transform.py:simplify_canned_cycle"]}
{"id": "C80", "title": "Arcs can be linearized with the default arguments", "statement": "linearize_arc(arc, start) without further arguments produces moves for every arc whose parameters make sense.", "quantifier": "every arc and start", "why_tests_cant": "the tests always pass a method", "anchors": ["src/pygcode/transform.py:linearize_arc", "src/pygcode/transform.py:DEFAULT_LA_METHOD"]}
{"id": "C81", "title": "Arc parameters that make no sense are reported as such", "statement": "An arc without end point, with both or neither of a radius and a centre, with a zero radius, or with a radius too small for its ends, raises GCodeParameterError; every other arc has a circle.", "quantifier": "every arc gcode, plane, start, mode", "why_tests_cant": "all combinations of parameters", "anchors": ["src/pygcode/transform.py:linearize_arc", "src/pygcode/gcodes.py:GCodeArcMove.assert_params"]}
{"id": "C82", "title": "Arcs are divided into as few equal pieces as the error allows", "statement": "With fewer wedges of equal angle than linearize_arc uses, the lines of the chosen method would be farther from the circle than max_error allows.", "quantifier": "every arc in the XY plane, every error, each method", "why_tests_cant": "all geometries", "anchors": ["src/pygcode/transform.py:ArcLinearizeMethod.wedge_count", "src/pygcode/transform.py:ArcLinearizeInside", "src/pygcode/transform.py:ArcLinearizeOutside", "src/pygcode/transform.py:ArcLinearizeMid"]}
{"id": "C83", "title": "Range arguments mean what the help says", "statement": "pygcode-crop accepts exactly the ranges its help text describes (first and last conditions, each a comma-separated list of variable, comparison, number); the conditions it then tests are those written; every other text is refused with ArgumentTypeError.", "quantifier": "every text on one line", "why_tests_cant": "infinitely many texts", "anchors": ["scripts/pygcode-crop:range_type", "scripts/pygcode-crop:_cmp"]}
{"id": "C84", "title": "The final actions go where they say, safely", "statement": "With --zero_xy, --zero_z, --spindle_off, pygcode-norm's output, run on the machine, first does what the program did, then ends at X0 Y0 / Z0 / with the spindle off as asked, changes nothing else, and moves in X and Y only at the safety height: the one given, else one no lower than any Z the program reached.", "quantifier": "every program file, all combinations of the options, every height", "why_tests_cant": "all programs", "anchors": ["scripts/pygcode-norm:359-377", "scripts/pygcode-norm:write"]}
{"id": "C85", "title": "--full completes every line, and the program stays the same", "statement": "pygcode-norm --full prints each line with the gcodes in the order of execution and the leftover words put with the motion command in force; read back, no line has leftover words, what each does is independent of the motion mode before it, comments and macros are kept and the machine is in the same state after every line.", "quantifier": "every program file, with every combination of --rm_comments, --rm_blanks, --rm_whitespace and every machine mode", "why_tests_cant": "all programs", "anchors": ["scripts/pygcode-norm:write", "scripts/pygcode-norm:352-357", "src/pygcode/machine.py:Machine.block_modal_gcodes"]}
{"id": "C86", "title": "Removing comments, blank lines and whitespace removes nothing else", "statement": "With --rm_comments, --rm_blanks, --rm_whitespace (any combination) pygcode-norm prints the same gcodes, leftover words and macros line by line; comments are gone / no line is empty / the gcodes are printed without blanks exactly as asked; running the output puts the machine in the same states.", "quantifier": "every program file, all combinations", "why_tests_cant": "all programs", "anchors": ["scripts/pygcode-norm:write"]}
{"id": "C87", "title": "--rm_gcodes removes the named gcodes and nothing else", "statement": "With --rm_gcodes pygcode-norm prints every line without exactly those gcodes whose word is given (and their parameters); all others, leftover words, comments and macros stay.", "quantifier": "every program file, every list of words, in combination with --full, --rm_comments, --rm_blanks, --rm_whitespace", "why_tests_cant": "all programs", "anchors": ["scripts/pygcode-norm:write", "scripts/pygcode-norm:word_list_type"]}
{"id": "C88", "title": "--arc_lin_method means what its help says", "statement": "pygcode-norm --arc_lin_method accepts exactly i, o, m, or two of them separated by a comma (and nothing, the default); clockwise arcs are then linearized by the first, counter-clockwise ones by the second or, if there is one only, the first. Every other text is refused with ArgumentTypeError.", "quantifier": "every text", "why_tests_cant": "infinitely many texts", "anchors": ["scripts/pygcode-norm:arc_lin_method_type"]}
{"id": "C89", "title": "Lists of words are read element by element", "statement": "--canned_codes and --rm_gcodes take a list separated by commas with optional blanks around them; the list is accepted exactly when every element is a word, and then contains those words. The default list, printed from the words of all canned cycles, is read back as those words.", "quantifier": "every text, every list of words", "why_tests_cant": "infinitely many texts", "anchors": ["scripts/pygcode-norm:word_list_type", "scripts/pygcode-norm:DEFAULT_CANNED_CODES"]}
{"id": "C90", "title": "--canned_expand and --arc_linearize replace commands by moves that lead to the same place", "statement": "pygcode-norm with --canned_expand / --arc_linearize prints every line without such a command as it was; a line with one is printed as the gcodes before it, moves, the gcodes after it and its comment. None of the commands is left in the output, and the machine running it passes through the places of the replacing moves and is, after every line of the original, in the same place and in the same modes (that of motion aside).", "quantifier": "every program file, every list of --canned_codes naming cycles, every machine mode", "why_tests_cant": "all programs", "anchors": ["scripts/pygcode-norm:302-357", "scripts/pygcode-norm:split_and_process", "src/pygcode/transform.py:simplify_canned_cycle", "src/pygcode/utils.py:omit_redundant_modes"]}
{"id": "C91", "title": "--rm_invalid_modal removes what is not understood, and only that", "statement": "pygcode-norm --rm_invalid_modal never fails because of leftover words the motion mode does not take; it prints every line with its gcodes, the leftover words that are understood, its comment and macro. A machine that ignores nothing accepts the output and goes through the states the script's machine went through; a file that can be read without the option comes out the same.", "quantifier": "every program file, every machine mode", "why_tests_cant": "all programs", "anchors": ["scripts/pygcode-norm:218-221", "scripts/pygcode-norm:234", "scripts/pygcode-norm:316-317", "src/pygcode/machine.py:Machine.clean_block", "src/pygcode/machine.py:Machine.modal_gcode"]}
{"id": "C92", "title": "A linearized arc ends where the arc ends, in floating point too", "statement": "linearize_arc generates only G1 with X, Y and Z; in absolute mode the last one names exactly the end of the arc (its words, or the start on axes without one), whatever the functions of math return; in incremental mode all increments are thousandths and their sum differs from what the arc leads by at most half a thousandth and the rounding errors of the additions, however many lines there are.", "quantifier": "every arc, start, plane, method, mode and precision (incrementally: coordinates up to 524287 on the way), every accurate rounding (binary64 and exact arithmetic among them), every sqrt, acos, cos, tan, atan2, % and rotation", "why_tests_cant": "all arcs, all floats; the errors add up over the lines", "anchors": ["src/pygcode/transform.py:linearize_arc", "src/pygcode/transform.py:ArcLinearizeMethod.iter_vertices", "src/pygcode/utils.py:plane_projection"]}
{"id": "C93", "title": "linearize_arc does not stop with math domain errors", "statement": "Given an arc, a position, one of the planes XY, ZX, YZ and a positive precision, linearize_arc in floating point either generates all its moves, or reports words that make no sense (before generating anything), or raises GCodeParameterError for an end out of reach or ZeroDivisionError; rounding never drives math.sqrt or math.acos out of their domain.", "quantifier": "every arc, start, plane, method, mode and precision, every accurate monotone rounding (binary64 among them), every non-negative sqrt, every acos, cos, tan, atan2, % and rotation", "why_tests_cant": "all arcs, all floats", "anchors": ["src/pygcode/transform.py:linearize_arc", "src/pygcode/transform.py:ArcLinearizeMethod", "src/pygcode/gcodes.py:GCodeArcMove.assert_params"]}
{"id": "C94", "title": "pygcode-crop goes into place up, over and down", "statement": "In front of the kept lines pygcode-crop prints three rapid moves: from where the machine starts, along the normal of the plane in force (Z without one) to the largest coordinate any of the removed gcodes led to, then at this height to the other coordinates of the place where the kept lines start, then down to this place. Nothing printed before these moves the machine.", "quantifier": "every program file, every range, every plane", "why_tests_cant": "all programs; the height depends on every gcode removed", "anchors": ["scripts/pygcode-crop:206-236", "src/pygcode/machine.py:Machine.abs_pos", "src/pygcode/machine.py:Machine.__copy__"]}
{"id": "C95", "title": "In floating point too, linearized arcs stay within the precision of the arc", "statement": "In the XY plane and absolute mode, with rounding and functions of math that are right up to a relative error u, the moves linearize_arc generates in floating point go around the centre the arc is given with (or the one its radius and direction determine), in the arc's direction and by less than a full turn, through corners that follow each other along the arc and rise evenly from its start to its end; no point on a move is further inside or outside the circle than the method and the precision allow, but for 1500 u M, where M bounds the coordinates and radii. In incremental mode, where moves are rounded to thousandths, the points they lead through stay that close too, but for half a thousandth per coordinate and the errors of adding up. In each of the planes XY, ZX and YZ the centre and the radius the function works with are those the words of the arc ask for, up to the rounding errors.", "quantifier": "every arc whose ends are at least 2000 u M apart, every precision of at least 2000 u M, every method, every u up to a millionth, every arithmetic and library of functions that is right up to u (binary64 among them)", "why_tests_cant": "all arcs, all floats; errors of circle, angle, number of lines, rotation and height add up", "anchors": ["src/pygcode/transform.py:linearize_arc", "src/pygcode/transform.py:ArcLinearizeMethod", "src/pygcode/transform.py:ArcLinearizeInside", "src/pygcode/transform.py:ArcLinearizeOutside", "src/pygcode/transform.py:ArcLinearizeMid", "src/pygcode/utils.py:plane_projection"]}
{"id": "C96", "title": "pygcode-norm --arc_linearize prints paths that stay within the precision of the arcs", "statement": "In the program pygcode-norm --arc_linearize prints, read back and executed, no arc is left; where there was an arc of ordinary size in the XY plane and absolute mode, the machine is at its start before the moves that replace it, passes through points that follow each other along the arc, in its direction, by less than a full turn and evenly up or down, and ends in its end; no point on the way is further from the circle than the chosen method and --arc_precision allow, but for the errors of floating point (1500 u M) and of printing three decimals (half a thousandth, from 1000 on five digits, per coordinate).", "quantifier": "every program file, every method and precision, every arithmetic and library of functions right up to u (binary64 among them)", "why_tests_cant": "all programs; the moves depend on modes and positions reached by everything before, and are printed and read back", "anchors": ["scripts/pygcode-norm:322-335", "src/pygcode/transform.py:linearize_arc", "src/pygcode/words.py:Word.value_str"]}
{"id": "C97", "title": "pygcode-norm --canned_expand prints drilling that is safe and complete, in floating point", "statement": "In the program pygcode-norm --canned_expand prints (with or without --arc_linearize), read back and executed, no cycle is left; where there was a drilling cycle in absolute mode, G17 and G98, with words that print without loss and heights up to 998, the moves that replace it, as they are printed with three decimals and read again, are rapid only where the hole is free, sideways not below the retract height, feed only down, over the holes and never below their bottom; every hole is drilled to its bottom and the tool ends at the height it came from. After each line of the program both machines are in the same place and modes.", "quantifier": "every program file, every cycle G73, G81, G83, G85, G89, G76, every Q, L and number of pecks, every arithmetic whose rounding is accurate, monotone, idempotent and odd (binary64 and exact arithmetic among them)", "why_tests_cant": "all programs; the heights of the pecks are added up in floating point and then rounded to three decimals, so that a clearance may come out on either side of the depth reached", "anchors": ["scripts/pygcode-norm:336-345", "src/pygcode/transform.py:simplify_canned_cycle", "src/pygcode/words.py:Word.value_str"]}
{"id": "C98", "title": "The program pygcode-norm prints differs from the program read only by the decimals that printing loses", "statement": "Without options, on files whose words stay apart when printed and whose numbers have any number of decimals, pygcode-norm prints a program that can be read and executed; line by line it has the same gcodes, with the same words up to the numbers read where the original ones were printed, the same comments and macros; and after each line the machine has the same modes, and its position and recorded range are off by at most one unit of error (half a thousandth, from 1000 on five digits) plus one for every incremental move so far: errors do not add up in absolute mode.", "quantifier": "every program file, every bound M up to 999999 on its coordinates, every accurate, monotone, idempotent rounding (binary64 among them)", "why_tests_cant": "all programs; the position after a line depends on every line before, and each number is printed, read and added in floating point", "anchors": ["scripts/pygcode-norm:352-357", "src/pygcode/words.py:Word.value_str", "src/pygcode/machine.py:Machine.process_gcodes", "src/pygcode/machine.py:Machine.move_to"]}
{"id": "C99", "title": "A program cut by pygcode-crop differs from the lines kept only by the decimals that printing loses", "statement": "With numbers of any number of decimals: in front of the kept lines pygcode-crop prints the modes and three rapid moves that lift the tool to within one unit of error (half a thousandth, from 1000 on five digits) of the largest coordinate reached, move it over the place where the kept lines start and lower it to within one unit of error of this place; then come the kept lines, with the same gcodes up to the numbers read where the original ones were printed, and after each of them the machine has the same modes and is off by at most one unit of error plus one for every incremental move among the kept lines so far.", "quantifier": "every program file and range where the lines removed leave the machine in absolute mode, the planes XY, ZX or YZ, without canned cycle and G96 (what C71 shows the preamble cannot restore), every bound M up to 999999 on the coordinates, every accurate, monotone, idempotent rounding (binary64 among them)", "why_tests_cant": "all programs; where the kept lines start, the modes and the height depend on every line removed, and are printed, read and added in floating point", "anchors": ["scripts/pygcode-crop:196-240", "src/pygcode/machine.py:Mode.__str__", "src/pygcode/words.py:Word.value_str", "src/pygcode/machine.py:Machine.process_gcodes"]}
{"id": "C100", "title": "Assigning to a parameter of a gcode changes that gcode and nothing else", "statement": "After reading lines, processing them with a machine, clearing its modes and assigning parameters in any order: assigning a parameter of one gcode of one line (g.X = 5) changes that parameter of that gcode only. The other gcodes of the line, the words of the line with other letters, every other line and the modes the machine remembers stay as they are.", "quantifier": "every sequence of reading, processing, clearing and assigning, every line, gcode, letter and value, every arithmetic", "why_tests_cant": "Word objects are shared: between a line's list of words and its gcodes, and, through modal_copy, between a gcode and the machine that processed it; whether an assignment shows elsewhere depends on everything done before", "anchors": ["src/pygcode/gcodes.py:GCode.__setattr__", "src/pygcode/gcodes.py:GCode.modal_copy", "src/pygcode/gcodes.py:words2gcodes", "src/pygcode/machine.py:Mode.set_mode", "src/pygcode/machine.py:Machine.modal_gcode", "src/pygcode/block.py:Block.__init__"]}
{"id": "C101", "title": "What a block says about itself is what its commands do", "statement": "block.X is a word with that letter that a command of the block or a bare parameter is made of, and the value the command uses; it is None exactly if there is none. bool(block), len(block) > 0, str(block) != '' and 'the text is not blank' are the same, and len(block) is the number of gcodes a machine runs for the block.", "quantifier": "every text of code points 0..255, every letter, every machine, every arithmetic", "why_tests_cant": "all texts, all machines; __getattr__, __len__, __bool__, __str__ and the machine each look at a different list", "anchors": ["src/pygcode/block.py:Block.__getattr__", "src/pygcode/block.py:Block.__len__", "src/pygcode/block.py:Block.__bool__", "src/pygcode/block.py:Block.__str__", "src/pygcode/machine.py:Machine.block_modal_gcodes"]}
{"id": "C102", "title": "Looking at a position does not change it", "statement": "Reading attributes, words or the vector of a position, comparing it, adding, subtracting, scaling or bounding it changes neither operand: every later statement of the program sees what it would have seen before. Only an assignment to the position itself changes it, in that one coordinate.", "quantifier": "every sequence of constructing, copying, reading, assigning, comparing, adding, subtracting, scaling and bounding positions of any axes and units, every arithmetic", "why_tests_cant": "all programs on positions; a lookup in a defaultdict may insert a key, and what equality and bounds see depends on the keys", "anchors": ["src/pygcode/machine.py:Position.__init__", "src/pygcode/machine.py:Position.__getattr__", "src/pygcode/machine.py:Position.__eq__", "src/pygcode/machine.py:Position.__add__", "src/pygcode/machine.py:Position._cmp", "src/pygcode/machine.py:Position.vector"]}
{"id": "C103", "title": "Gcodes made in code and printed are read back as the same commands", "statement": "Take any gcode made in code: by its class and keyword parameters, with a number (GCodeFeedRate(100)), with a word that means the class, by assigning parameters or by modal_copy. Its str(), alone on a line, is read as exactly one gcode, of the same class, equal up to the decimals printing drops, with no leftover words, comment or macro; without dropped decimals the two are equal, and a program written by printing gcodes one per line does to a machine what the gcodes do.", "quantifier": "every class, every parameter, every history of assignments and copies, every program, every machine, every accurate rounding (binary64 and exact arithmetic among them)", "why_tests_cant": "all classes, all numbers, all programs; whether a text is read as the class it was made with depends on the class table, the printing of numbers and how words are grouped", "anchors": ["src/pygcode/gcodes.py:GCode.__init__", "src/pygcode/gcodes.py:GCode._default_word", "src/pygcode/gcodes.py:GCode.__str__", "src/pygcode/gcodes.py:GCode.add_parameter", "src/pygcode/gcodes.py:GCode.__setattr__", "src/pygcode/gcodes.py:GCode.modal_copy", "src/pygcode/gcodes.py:text2gcodes", "src/pygcode/machine.py:Machine.process_str"]}
{"id": "C104", "title": "The pieces of a program cut by pygcode-crop, run one after the other, do what the program does", "statement": "Cut a program into any number of pieces with pygcode-crop (\":4\", \"4:9\", \"9:\") and run the printed files one after the other on one machine. Every line of the program is in exactly one piece, in order; each of them leaves the machine in the place and with the modes it left it in the program; between two pieces the tool is lifted to the highest place reached so far and put back exactly where it was.", "quantifier": "every program, every number of pieces and places to cut, every accurate rounding (binary64 and exact arithmetic among them)", "why_tests_cant": "all programs and all ways to cut them; the state at the end of one piece depends on everything before", "anchors": ["scripts/pygcode-crop:range_type", "scripts/pygcode-crop", "src/pygcode/machine.py:Machine.process_block", "src/pygcode/machine.py:Mode.__str__"]}
{"id": "C105", "title": "Reading and running a program stops only for stated reasons, each with its own error", "statement": "A line is refused exactly when it is not one line (AttributeError), is not made of words (GCodeWordStrError), gives a parameter twice (GCodeParameterError) or has conflicting commands (AssertionError). Running it stops exactly when a word without a gcode is not one the motion mode takes (MachineInvalidState), or a canned cycle comes that cannot be done: no plane selected (AttributeError), or a return to R without an R or without a normal (TypeError) or along an axis the machine lacks (MachineInvalidAxis). So a program without G99 whose lines are read runs to its end on the default machine unless it has such a word, and always if such words are ignored.", "quantifier": "every text, every reachable machine, every program of any length", "why_tests_cant": "all texts and all machine states; that no other exception can come out cannot be seen from examples", "anchors": ["src/pygcode/line.py:Line.__init__", "src/pygcode/block.py:Block._assert_gcodes", "src/pygcode/machine.py:Machine.process_block", "src/pygcode/machine.py:Machine.modal_gcode", "src/pygcode/machine.py:Machine.move_to", "src/pygcode/gcodes.py:GCodeCannedCycle._process"]}
{"id": "C106", "title": "pygcode-norm finishes, unless a pecking cycle makes no progress", "statement": "Whatever the file and the options, pygcode-norm ends (normally or with an exception) when --canned_expand is not given, with or without --arc_linearize. With --canned_expand it ends in exact arithmetic unless some Q of the program is zero; with rounded numbers it ends when each Q is a thousandth or more, each R and Z is within a million units, no hole is shallower than a thousandth and G91 is not used. What it prints does not depend on how many turns its loops are allowed, once they are enough. It never ends when it comes to a peck drilling cycle with Q0, or with a Q that is lost in rounding at the height R.", "quantifier": "every file, every option, every rounding arithmetic with the stated laws", "why_tests_cant": "a run that does not end cannot be told from a long one by running it, and files and options are without bound", "anchors": ["scripts/pygcode-norm", "src/pygcode/transform.py:simplify_canned_cycle", "src/pygcode/transform.py:linearize_arc"]}
{"id": "C107", "title": "The same program run from another place", "statement": "Two machines that differ only in where they are (and have been) accept the same program: they stop at the same line with the same exception or not at all, and differ afterwards at most in where they are. An axis on which they agree stays agreed, with any rounding. In exact arithmetic they are afterwards, on each axis, as far apart as before or together; a program in incremental mode without G90 keeps them exactly as far apart; in absolute mode, a move that names an axis brings them together on it, with any rounding.", "quantifier": "every pair of reachable machines that differ only in position, every program text, every rounding arithmetic (exact arithmetic where distances are compared)", "why_tests_cant": "programs, positions and coordinate offsets are without bound; the relation is between two runs", "anchors": ["src/pygcode/machine.py:Machine.move_to", "src/pygcode/machine.py:Machine.process_str", "src/pygcode/gcodes.py:GCodeCannedCycle._process"]}
{"id": "C108", "title": "pygcode-norm run again on what it printed changes nothing more", "statement": "Run a second time with the same options on what it printed, pygcode-norm prints the same lines: with --full, --rm_comments, --rm_blanks, --rm_whitespace in any combination, and with --singles, the second run ends well and prints exactly what it was given; with --rm_gcodes it prints the same if it ends well. With --canned_expand and --arc_linearize the second run replaces nothing: a program without arcs and named cycles, read by a machine that does not start in such a mode, is printed as the script prints it without options, whatever the precision, the method and the number of steps allowed, and the output of a first run is such a program.", "quantifier": "every program that can be read and run and whose lines print without loss (C72, C85, C90), every combination of the options, every accurate arithmetic", "why_tests_cant": "programs are without bound; that the normal form is a fixed point is a statement about all of them", "anchors": ["scripts/pygcode-norm:write", "scripts/pygcode-norm:split_and_process", "src/pygcode/transform.py:omit_redundant_modes"]}
{"id": "C109", "title": "In absolute mode a line sent twice does what it does once", "statement": "If a line has been processed and leaves the machine in absolute distance mode, processing the same line again succeeds and changes nothing that can be read off the machine: no mode, no coordinate system, no axis of the position and neither end of the recorded range. Moves on the line use the distance mode the line ends with, because modes are set before motion, and words without a command are read the second time as they were the first time.", "quantifier": "every line that can be read, every machine reachable by any history, every arithmetic whose rounding is idempotent", "why_tests_cant": "lines, machine histories and numbers are without bound; resending a line whose acknowledgement was lost relies on this for all of them", "anchors": ["src/pygcode/machine.py:Machine.process_gcodes", "src/pygcode/machine.py:Machine.modal_gcode", "src/pygcode/machine.py:Machine.move_to"]}
{"id": "C110", "title": "X and Y are treated alike", "statement": "Exchange every x and y in a program (and in the machine it runs on): the run goes the same way, errors included, and the position, the recorded range and the offsets are those of the original run with X and Y exchanged. Only the planes XZ and YZ, which single out one of the two, are excepted.", "quantifier": "every list of texts whatsoever (readable or not) that selects neither of these planes, every machine reachable by any history, every arithmetic", "why_tests_cant": "programs and numbers are without bound, and it compares two runs; a slip that mixes up two axes in one branch is only seen if a test takes that branch with unequal values", "anchors": ["src/pygcode/machine.py:Machine.process_gcodes", "src/pygcode/machine.py:Machine.move_to", "src/pygcode/machine.py:Position", "src/pygcode/gcodes.py:words2gcodes", "src/pygcode/words.py:text2words"]}
