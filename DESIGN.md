# Formal model of pygcode: design

Everything machine-checked lives in `rocq/theories` (logical root `Verif`, Coq 8.16.1). The English
properties are in `properties.jsonl` (written by `tools/gen_props.py`), their status in `MANIFEST.json`.

## 1. Layout

| layer | files | contents |
|---|---|---|
| base | `Base.v`, `Num.v` | texts (code points 0..255), exceptions as values, rationals, floating point rounding, decimal printing |
| model | `Regex.v`, `Words.v`, `Comment.v`, `Line.v`, `GTable.v` (generated from `gcodes.py` by `tools/gen_table.py`), `GCode.v` (gcodes and blocks), `Position.v`, `Machine.v` (modes, state, movement, canned cycles), `Transform.v` (absolute to incremental, redundant words, expansion of drilling cycles), `Arc.v` (arcs over the reals), `Scripts.v`, `ScriptArgs.v`, `FloatArc.v` (the same arcs in floating point), `Heap.v` (words and gcodes as shared objects), `PosHeap.v` (positions as objects whose dictionaries grow when looked at), `Build.v` (the constructor with a number) | the code of /repo, function by function; each definition cites file and lines; no proofs |
| specifications | `*Spec.v` | small independent statements (grammars, relations, predicates) |
| proofs | `*Proofs.v` | lemmas |
| properties | `Props*.v` | only final theorems (`Cnn_...`), `Print Assumptions`, and a concrete `Example` per theorem |

## 2. How the code is represented

* **Python semantics.** Python 3. Exceptions are values (`exn`); a function that can raise returns
  `result A := Ok a | Raise e`. Methods that mutate and can raise return the new object *and* a
  result, so the partial effect of a failing call is visible.
* **Text** is `list ascii`, i.e. code points 0..255. `\s`, `\d`, `str.upper`, `strip` are the Python
  ones restricted to that range (`\s` = 9-13, 28-32, 133, 160). Texts with larger code points are not modelled.
* **Regular expressions** used by the code are data (`re`), given a prioritised backtracking
  semantics; the hand written matchers used elsewhere are proved equal to them.
* **Numbers.** A Python float is a rational (`Qc`, canonical, so `=` is Python's `==`). Every float
  literal read and every float operation is `rnd (exact operation)`, where `rnd` is a parameter (`Arith` class).
  Theorems hold for every `rnd`, or for every `rnd` satisfying named laws, or for exact arithmetic - each says which.
  Two instances: `exact` and `binary64` (round to 53 bits, half even, gradual underflow). Not modelled:
  infinities, NaN, overflow, the sign of zero (except that printing a negative number that rounds to 0 gives "-0" as in Python).
* **Dictionaries** are association lists in insertion order (CPython 3.7+).
* **Aliasing.** Objects are values, except in `Heap.v`, which models the same reading, processing and assigning with `Word` and `GCode`
  objects at addresses, so that sharing (a line's words and its gcodes' parameters; `modal_copy`) is visible. The value model is proved
  to be what is seen on the heap (C100). Elsewhere a later in-place change of one gcode through another is not modelled; the library itself
  never assigns to a gcode after building it, but for the whitespace flag of a copy in `utils.py`.
* **Geometry** (arc linearization, quaternions) is over the real numbers `R` of the standard
  library: the properties are about the ideal computation, not about its float rounding. Division by zero is an explicit error case.
  `FloatArc.v` is the same code with rounded operations, for what holds in floating point (where the arc ends, C92; how close the moves stay to it, C95); there `math.sqrt`,
  `acos`, `cos`, `tan`, `atan2`, `**`, `%` and the rotations of euclid3 are arbitrary functions, for C95 close to the real ones up to a bound.
* **Scripts**: the main loops of `pygcode-crop` and `pygcode-norm` as functions from the list of
  input lines and options to the printed lines. argparse, files, encodings are not modelled.

## 3. Trusted base

* The Coq kernel (8.16.1) including `vm_compute`.
* `Print Assumptions` under each final theorem: "Closed under the global context" everywhere
  except the geometry and the floating point laws, which use the axioms of the standard library's `Reals`
  (`ClassicalDedekindReals.sig_forall_dec`, `ClassicalDedekindReals.sig_not_dec`,
  `FunctionalExtensionality.functional_extensionality_dep`, and `Classical_Prop.classic` via Flocq/Coquelicot/Interval where used).
  The table in section 6 lists them per theorem file. No axioms of our own.
* The faithfulness of the model, i.e. that the definitions match the cited lines of /repo. The class
  table is generated from the text of `gcodes.py` by `tools/gen_table.py` (Python `ast`, the project is not imported or run).
* External library behaviour stated in comments: Python `re`, `str.format('%g')`, `round`, `float`, `sorted`, and `euclid3`.

## 4. Not modelled

* `logging`, docstrings, the texts of exceptions (an exception is its class), `GCode.__repr__` other than where `pygcode-norm` prints it
  (`gcode_repr`), `Block`/`Line`/`Comment`/`Position` `__repr__`.
* argparse itself, opening files, encodings; the functions argparse calls on arguments are modelled (`ScriptArgs.v`, `range_type` in `Scripts.v`).
* The `reprap` dialect (an empty module: any use of it raises).
* Numbers: infinities, NaN, overflow, the sign of zero; as arguments of words the forms of `float()` and `int()` the word patterns never
  produce (exponents, `_`, `+`, `inf`). Such input gives `ENotModelled`, an error of the model that no theorem counts as success.
* Texts with code points above 255.
* `Position.vector` for a position without X, Y or Z in the arc functions (`ENotModelled`; `PosHeap.v` models it elsewhere). The machine of
  the scripts has all three axes.
* Classes defined by users: the class table is the one in the source. Only single objects are shared in `Heap.v` and `PosHeap.v`; the
  rest of the model has values instead of objects.

## 5. Plan per property

(status and exact theorem names: `MANIFEST.json`)

| id | modelled | proof idea |
|---|---|---|
| C01 | `text2words` over all Latin-1 texts | grammar as inductive relation; functional matcher sound and complete; uniqueness by determinism; length measure for termination |
| C02 | `text2words` | induction on the list of spelled words, greedy matching lemma per value pattern |
| C03 | `text2words` | false: witness `X1.2.3 Y4`; partial: junk after the last value is always refused, digits-only junk characterised |
| C04 | `text2words` | simulation over case-folded texts |
| C05 | `Block.__init__` | false for O / T words (they keep blanks); partial for all other letters |
| C06 | `Word.__str__` | digit generation lemmas, error bound in exact rationals |
| C07 | same | false: witness 1234567; partial inside the range |
| C08 | same | digit lemmas for `%g` on integers and tenths, for all k |
| C09 | `Word` comparison methods | order/equivalence lemmas by cases on value kinds |
| C10, C11 | `words2dict`, `str2word` | induction; cases |
| C12, C13 | `split_line` | regex semantics = first-occurrence functions |
| C14 | `split_line`, `Line` | partial (well formed comments) + refutations (`%`, `;` in brackets) |
| C15 | `Line.__init__` | regex semantics |
| C16 | `Line.__str__` | false with macro + comment; partial otherwise |
| C17 | generated class table | per-letter decision: membership functions are intervals, pairwise disjoint for all rationals |
| C18-C22 | `words2gcodes`, `GCode` | invariant of the three passes, against a one-pass specification |
| C23, C24 | `Block` | NoDup; print/parse lemmas from C02, C06-C08, C21; refutation for params before gcode |
| C25, C26 | sorting, `split_gcodes` | insertion sort: permutation, sorted, stable, unique |
| C27-C29 | `GCode` methods | dictionary lemmas |
| C30-C34 | `Mode`, `Machine` | invariant by induction over programs |
| C35-C39 | `Position` | per-axis lemmas, exact field laws. `p.unit = u` is modelled as what Python does: `Position.__setattr__` stores the value where the property hides it, so nothing is converted (C36, C38 refuted across units); the setter function is modelled separately |
| C40-C50, C54, C55 | `Machine` | per-step lemmas, induction over programs; refutations where the code disagrees |
| C51-C53 | `Machine.__copy__`, units, G92 | refutations with reachable witnesses; partial: what does hold |
| C56 | `_gcodes_abs2rel` | induction on moves, position trace |
| C57 | `omit_redundant_modes` | induction with active word as state |
| C58-C60 | `simplify_canned_cycle` | peck loop with measure; trace invariants; refutations |
| C61-C69, C80-C82 | `linearize_arc`, `utils` | real analysis: chord/sagitta lemmas, rotation algebra; refutations for G18/G19, full circles, opposite vectors, default method, exceptions |
| C70, C72, C73 | scripts | state machine lemmas over line lists; printed lines read back by the re-print theorems of lines; refutations |
| C71 | scripts | the printed modes and moves read back on the machine without modes; simulation between machines that differ in motion mode and recorded range |
| C74 | `dialects` | refutation |
| C83 | `range_type`, `_cmp` of pygcode-crop | grammar as inductive relations; regexes sound and complete; uniqueness |
| C84 | the final part of pygcode-norm (`norm_final`) | composition of one-line legs (`leg`): each printed line read back and run; maximum of recorded positions bounds every Z reached; refuted: height lost in printing, end of program before the final actions |
| C85 | pygcode-norm with --full (`norm`, `write`, `block_modal_gcodes`) | each line's text composed and read back (`styled_reads`, `line_around`), induction over the file with the machines kept equal (`restyle_back`); independence of the motion mode by simulation (`steps_near`); refuted: program name first, coordinates before a motion word |
| C86 | --rm_comments, --rm_blanks, --rm_whitespace | as C85 without --full; text without blanks reads as the same words (`words_read`); refuted: program name with blanks |
| C87 | --rm_gcodes | as C85, lines only (`restyle_lines`): the filtered gcodes are printed and read back; refuted as an equivalence: implied motion |
| C88 | --arc_lin_method | model ScriptArgs.v, spec `lin_text` (ScriptArgsSpec); all matches of the pattern characterised (`lin_found`), the words of G2/G3 gcodes from the documented classes; refuted: capital letters |
| C89 | lists of words | `re.split` by the pieces of `finditer`; spec `csv`, total and unambiguous; equivalence `re_split RE_COMMA s = l <-> csv s l`; round trip of printed words |
| C90 | --canned_expand, --arc_linearize | spec `carried_over` (ScriptsSpec6): line by line kept or replaced, states related by `resumed`; simulation between the machine of the script and the one reading the output, the motion mode differing after moves (`pending`); the cycle's moves by C58 (exact arithmetic), those of an arc by C92 (any arithmetic, any functions of math, absolute mode; spec `linearizable`, ScriptsSpec8; in incremental mode exact arithmetic, ScriptsSpec9); refuted: G99, macro, G82, other codes, circles without end point, half circles, rounding of increments |
| C91 | --rm_invalid_modal | spec `understood`, `tidy_reading`, `stands_for` (ScriptsSpec7): gcodes and usable leftover words executed line by line; the steps of the machine are blind to ignore_invalid_modal (`process_blind`), so the output runs on a machine that ignores nothing; C91_same: files with nothing to remove come out the same; refuted: words ahead of a motion word, doubled letters |
| C92 | linearize_arc in floating point | model FloatArc.v: every operation rounded by `rnd`, the functions of math arbitrary (`mathlib`); spec `ends_at`, `leads`, `total`; projecting on the plane and adding the part along its normal gives the point back exactly (`end_point`, the normal having coordinates 0 and 1); the drift of the running sum bounded by induction (`drift`); the thousandths of the moves as integers (`counts`, FloatArcProofs4): the last one is the nearest to what is left, which is within less than half |
| C93 | exceptions of linearize_arc in floating point | FloatArc.v; spec `posed`, `in_order` (FloatArcSpec2); r - e <= r, r <= r + e, h <= r -> h^2 <= r^2 survive monotone rounding. Root64.v: a correctly rounded binary64 square root, used to show that `right_root` can be met; C81 refuted for half circles with any such library |
| C94 | the way into place of pygcode-crop | Scripts.v `crop_preamble`, `crop_plane`; spec `upright`, `approaches` (ScriptsSpec3), the height as the largest coordinate on the `path` of the removed gcodes; three applications of the lemma on one printed G0 (ScriptsProofs7), C43 for the height; gcodes stored as modes name no axis unless they are canned cycles |
| C95 | linearize_arc in floating point: the geometry | FloatArc.v over an arbitrary `mathlib`; hypothesis `close_to_real` (FloatArcSpec3): each operation and function within u of the real one; forward error analysis: centre and radius (FloatArcProofs6-8; the offset of the centre from the chord by a square root, hence sqrt(u) for its position), angle (10), number of wedges and outer radius (11), corners and the lines between them (12), whole (13); points on a line between two corners by real geometry (9); Lib64.v: a library on binary64 meeting the hypothesis (pi by Machin's series, rounding by Flocq); incremental mode: the points passed are those of absolute mode up to rounding (14); C95_center: in ZX and YZ the circle is that of the XY plane with axes and letters renamed (15: every operation commutes with the renaming, the vector product because rounding is odd), so the analysis of the XY plane carries over |
| C96 | the paths printed by pygcode-norm --arc_linearize | C90 (what is printed, read back and executed, line by line: `carried_over`, now with the state before the moves) and C95 combined; C06 for the errors of printing, with a sharper bound below 1000; a move read back leads to the values read (no offsets: G92, G10, G53 have no effect); `cut_lines` (ScriptsSpec10) says what holds for every line |
| C97 | the drilling pygcode-norm --canned_expand prints, in floating point | printing with three decimals and reading back is a monotone map `rho` of the heights (up to 999), so that safety (C59, in floating point) carries over from the generated moves to those read; C90 for what is printed line by line; `drill_ready`, `drilled_lines` (ScriptsSpec11) say what is needed and what holds; also shows that cycles and arcs may be mixed (both `tractable` for C90) |
| C98 | what pygcode-norm prints for numbers with any number of decimals | the theorem that a printed line reads as the same line (BlockProofs, LineProofs) is generalised from equal words to words in any relation `W` kept by printing; ScriptsSpec12 says which programs are alike up to `W` and counts incremental moves; ScriptsProofs21 shows that alike machines stay alike, each kind of gcode adding at most one unit of error per incremental move and resetting it in absolute mode; an example shows that the error does add up in incremental mode |
| C99 | what pygcode-crop prints for numbers with any number of decimals | ScriptsProofs23: the machine whose words and coordinates are those read back (`mback`) is restorable in the sense of C71, and its preamble consists of lines that read exactly as the lines printed for the original machine; so the preamble leads to the read-back machine. The same machine with its recorded ranges widened around its place is alike to the original one in the sense of C98, so the kept lines go the way of the original ones (`reading_rounded`), and lines do the same on machines that differ in recorded ranges and motion mode (`kept_trails`) |
| C100 | objects and sharing | Heap.v: words and gcodes at addresses, the commands a program can give (read, process, clear the modes, assign); invariant (HeapProofs2): no address belongs to two gcodes of lines, a remembered gcode shares with a line only words of letters canned cycles keep; preserved by every command; agreement with the value model (HeapProofs, HeapProofs3); the sharing of remembered cycles is the refutation |
| C101 | `Block.__getattr__`, `__len__`, `__bool__`, `__str__` | part_of: the words of gcodes, parameters and bare parameters; C18 (no word is lost), C01 and C05 for blank texts; length of `block_modal_gcodes` |
| C102 | positions as objects | PosHeap.v: a list of positions, the statements a program can make, and what each does to its operands (defaultdict insertion); attributes never change but by assignment; without missing keys no object changes |
| C103 | constructor, `__str__`, `text2gcodes` | `made`: every way of making gcodes; all are well formed and their word names their class (default words by the documented table); the printed words are a spelling that groups into one gcode (BuildProofs, with the lemmas of C16); machines by C78 |
| C104 | pygcode-crop run several times | induction over the pieces: the preamble restores the state from any machine that has no modes in groups the wanted state has none in (generalises C71 from the machine without modes), which the end of the piece before is; the pieces as selections of C70, their arguments as ranges of C83 |
| C105 | Line.v, Machine.v | each error of the model characterised by a condition on the text (words read, groups, conflicts of C01, C18, C23) or on the machine; no other error is left over; induction over the commands of a block and the lines of a program, with a selected plane and the absence of G99 as invariants |
| C106 | Scripts.v, Transform.v, FloatArc.v | no function but the drilling loop runs out of turns (one lemma per function); more turns change nothing once they suffice (monotonicity in the bound); the cycles met are made of words of the program (invariant of the run), so their steps are known to make progress, with the count of C60 |
| C107 | Machine.v | two-run simulation: each step of the machine either fails alike on both or applies the same list of coordinates the same number of times (PlaceProofs.v process_twin); the relation between the positions is an invariant of that shift |
| C108 | Scripts.v norm | each printed line, read back, prints as it was (AgainProofs.v again_line: read-back lemmas of C85 plus equality of printed words); for --singles and for programs without anything to replace by induction over the lines, with the motion mode as invariant (AgainProofs2.v) |
| C109 | Machine.v process_str | per modal group a list of commands either keeps or sets (ResendProofs.v settles), per axis it stays, rounds or goes to a fixed place (acts_does), so doing it again changes nothing; the second run only meets places of the first, so the range stays (lows_twice, highs_twice); the motion mode after bare words is theirs by the stable order of execution (motion_after); a canned cycle aims at the same places as long as its parameters are the same (canned_aim), and updating remembered parameters twice is updating them once (filter_dupdate_twice) |
| C110 | Machine.v process_str, Regex.v, Words.v, GCode.v, Position.v | every function of the model commutes with the exchange: regular expressions whose character classes do not tell x from y (SwapProofs.v mtch_flip), word and gcode tables (word_class_swap, words2gcodes_swap), positions, moves, canned cycles in the other planes; induction over lines (SwapProofs2.v program_swap) |
| C75, C77 | class table | the tables in the comments of gcodes.py as data; agreement for all values |
| C76 | `GCode.__lt__`, sorting | documented order as data |
| C78 | `GCode.__eq__` | permutation of parameters; congruence of printing and processing |
| C79 | `simplify_canned_cycle` | exact arithmetic: one feed per hole; binary64: refutation |

## 6. Assumptions per theorem file

`ASSUMPTIONS.md` (generated by `tools/assumptions.py` from the output of `Print Assumptions`) lists them theorem by theorem.
Most theorems are closed under the global context: no axioms at all. The others are about real numbers (arcs: `PropsArc.v`,
`PropsFloatArc*.v` and what the scripts do with arcs; `Ieee.v`; the table names them) and depend on
axioms of the standard library only: `ClassicalDedekindReals.sig_not_dec`, `ClassicalDedekindReals.sig_forall_dec`,
`FunctionalExtensionality.functional_extensionality_dep`, and, through the trigonometric functions and Flocq, `Classical_Prop.classic`.

`Ieee.v` is a check of the model, not a property of the program: `binary64_ieee` proves that the rounding `rnd64` of the instance
`binary64` is, for every rational number, Flocq's IEEE 754 rounding to nearest even (`FLT_exp (-1074) 53`, overflow aside), and
`binary64_floats` that its fixed points are the numbers m*2^e with |m| < 2^53 and e >= -1074.
