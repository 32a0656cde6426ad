{
 "claims": [
  {
   "property": "C01",
   "status": "proved",
   "theorems": [
    "C01_index_cyclic",
    "C01_index_empty",
    "C01_index_list",
    "C01_first"
   ],
   "note": "Stated for the @ operator on every Scalar, List and finite Range, also for Lists of indices and the unary form; indexing an empty sequence warns and gives nil."
  },
  {
   "property": "C02",
   "status": "proved",
   "theorems": [
    "C02_slice_scalar",
    "C02_slice_list",
    "C02_sliced_scalar",
    "C02_sliced_list",
    "C02_sliced_empty",
    "C02_slice_empty"
   ],
   "note": "Slicing by a Range value with @ and by @< @> H S; the window is a window of the sequence repeated forever."
  },
  {
   "property": "C03",
   "status": "proved",
   "theorems": [
    "C03_length",
    "C03_truth",
    "C03_index",
    "C03_slice",
    "C03_sliced",
    "C03_iteration",
    "C03_member",
    "C03_find",
    "C03_find_all"
   ],
   "note": "Each listed operator gives on a finite Range the same result as on the List of its integers (slices: a value with the same items)."
  },
  {
   "property": "C04",
   "status": "proved",
   "theorems": [
    "C04_index",
    "C04_index_negative",
    "C04_slice_finite",
    "C04_slice_infinite",
    "C04_slice_negative",
    "C04_member",
    "C04_find",
    "C04_true",
    "C04_no_length"
   ],
   "note": "Index, slices, membership, position, truth value and (missing) length of an infinite Range."
  },
  {
   "property": "C05",
   "status": "partial",
   "theorems": [
    "C05_add_partial",
    "C05_sub_partial",
    "C05_add_infinite_refuted",
    "C05_sub_infinite_refuted"
   ],
   "note": "Proved for finite Ranges. Refuted for infinite ones: adding 3 to the Range from 2 on gives the finite Range of 0..4 (execution.py:778, 3862 pass upper=None to Range)."
  },
  {
   "property": "C06",
   "status": "proved",
   "theorems": [
    "C06_add",
    "C06_sub",
    "C06_mul",
    "C06_text",
    "C06_round_trip"
   ],
   "note": "For all decimal numerals, with leading zeros and either sign; the result is the canonical numeral of the exact integer."
  },
  {
   "property": "C07",
   "status": "proved",
   "theorems": [
    "C07_divmod",
    "C07_zero"
   ],
   "note": "Floor division and remainder for all non-zero divisors; division by 0 warns and gives nil."
  },
  {
   "property": "C08",
   "status": "proved",
   "theorems": [
    "C08_total",
    "C08_integers",
    "C08_text_is_zero",
    "C08_less_trans",
    "C08_lesseq_trans"
   ],
   "note": "One three-way answer explains < = > <= >= != CM for every two Scalars; on integer numerals it is the order of the integers; text that does not begin with a number counts as 0; < and <= are transitive (floats included)."
  },
  {
   "property": "C09",
   "status": "proved",
   "theorems": [
    "C09_less_greater",
    "C09_lesseq_greatereq",
    "C09_equal_notequal",
    "C09_block"
   ],
   "note": "All non-Block values; with a Block operand the operators build a function (C09_block)."
  },
  {
   "property": "C10",
   "status": "partial",
   "theorems": [
    "C10_equal_partial",
    "C10_trichotomy_partial",
    "C10_missing_bound_refuted",
    "C10_empty_refuted"
   ],
   "note": "Proved for Ranges with given lower bound (equality: non-empty). Refuted in general: ,5 and 0,5 have the same integers but none of < = > holds (ptypes.py compares None with 0); empty Ranges 3,3 and 5,5 are not =."
  },
  {
   "property": "C11",
   "status": "proved",
   "theorems": [
    "C11_lexicographic",
    "C11_trans"
   ],
   "note": "All strings of code points."
  },
  {
   "property": "C12",
   "status": "partial",
   "theorems": [
    "C12_false_partial",
    "C12_newline_refuted",
    "C12_integer"
   ],
   "note": "Exact characterisation of the false Scalars. The claim as stated fails for a zero followed by one newline ($ in the regular expression matches before it)."
  },
  {
   "property": "C13",
   "status": "proved",
   "theorems": [
    "C13_digits",
    "C13_read",
    "C13_inverse",
    "C13_default"
   ],
   "note": "All integers and bases 2..36, both directions, plus the default base."
  },
  {
   "property": "C14",
   "status": "proved",
   "theorems": [
    "C14_digits",
    "C14_read",
    "C14_inverse"
   ],
   "note": "All integers and bases >= 2; negative integers have non-positive digits."
  },
  {
   "property": "C15",
   "status": "proved",
   "theorems": [
    "C15_and",
    "C15_or",
    "C15_xor",
    "C15_not",
    "C15_xor_twice",
    "C15_not_twice",
    "C15_length"
   ],
   "note": "All integers and bit positions; also bit length."
  },
  {
   "property": "C16",
   "status": "proved",
   "theorems": [
    "C16_numeric",
    "C16_numeric_scalars",
    "C16_string_list",
    "C16_string_scalar"
   ],
   "note": "SN/DN on every List/Range (nil only when two items are incomparable; never for Lists of Scalars, where the order is the one of the operator <), SS/DS on Lists and on the characters of a Scalar; ties keep their order in both directions."
  },
  {
   "property": "C17",
   "status": "proved",
   "theorems": [
    "C17_attained",
    "C17_empty"
   ],
   "note": "Bounds stated with the operators >= and <=; empty argument warns and gives nil."
  },
  {
   "property": "C18",
   "status": "proved",
   "theorems": [
    "C18_first_occurrences"
   ],
   "note": "Lists and Scalars whose items contain no Block (Block equality is object identity in the code)."
  },
  {
   "property": "C19",
   "status": "proved",
   "theorems": [
    "C19_weave_unweave"
   ],
   "note": "Every Scalar, List and finite Range, every k >= 1; also the exact contents of each strand."
  },
  {
   "property": "C20",
   "status": "proved",
   "theorems": [
    "C20_group"
   ],
   "note": "Every Scalar, List and finite Range, both signs."
  },
  {
   "property": "C21",
   "status": "partial",
   "theorems": [
    "C21_pieces_refuted"
   ],
   "note": "Refuted as stated: \"a\" CH 10 gives 11 pieces because the cut position accumulates floating-point error (execution.py:1084-1118)."
  },
  {
   "property": "C22",
   "status": "proved",
   "theorems": [
    "C22_reverse",
    "C22_reflect",
    "C22_palindromize"
   ],
   "note": "All Scalars and Lists (reflections also for finite Ranges)."
  },
  {
   "property": "C23",
   "status": "proved",
   "theorems": [
    "C23_split_join",
    "C23_join_split"
   ],
   "note": "Literal separators; pattern separators are not modelled."
  },
  {
   "property": "C24",
   "status": "proved",
   "theorems": [
    "C24_strip"
   ],
   "note": "Whitespace form and character-set form of all three operators on Scalars."
  },
  {
   "property": "C25",
   "status": "proved",
   "theorems": [
    "C25_leaves",
    "C25_total"
   ],
   "note": "Leaves are a separate inductive relation; every List without an infinite Range has leaves."
  },
  {
   "property": "C26",
   "status": "proved",
   "theorems": [
    "C26_zip",
    "C26_zip_default",
    "C26_zip_twice"
   ],
   "note": "Z also with infinite Ranges beside a finite member; ZD with and without an explicit default."
  },
  {
   "property": "C27",
   "status": "proved",
   "theorems": [
    "C27_product",
    "C27_product2",
    "C27_combinations",
    "C27_permutations"
   ],
   "note": "Product in lexicographic position order, combinations and permutations by positions, with their counts."
  },
  {
   "property": "C28",
   "status": "proved",
   "theorems": [
    "C28_find",
    "C28_find_all"
   ],
   "note": "Lists with any Block-free item, strings with any substring including the empty one; Ranges via C03_find and C03_find_all. Regular expressions are not modelled."
  },
  {
   "property": "C29",
   "status": "proved",
   "theorems": [
    "C29_split_at"
   ],
   "note": "Exactly which cut positions occur is proved too."
  },
  {
   "property": "C30",
   "status": "partial",
   "theorems": [
    "C30_remove_items",
    "C30_remove_char",
    "C30_remove_text_partial",
    "C30_remove_text_refuted"
   ],
   "note": "Proved for Lists and for single characters. Refuted for longer substrings: \"aabb\" RM \"ab\" is \"ab\"; what holds is that the pieces between the occurrences are joined."
  },
  {
   "property": "C31",
   "status": "proved",
   "theorems": [
    "C31_unary",
    "C31_left",
    "C31_right",
    "C31_both"
   ],
   "note": "Every operator of the modelled table with the item-wise flag, including warnings and exceptions raised by the single applications."
  },
  {
   "property": "C32",
   "status": "proved",
   "theorems": [
    "C32_total",
    "C32_ignored",
    "C32_open"
   ],
   "note": "The lexical specification (token texts, gaps, maximal munch, split of capital runs) is stated without the scanner's regular expressions; every text is read completely or stops at an unterminated literal or comment."
  },
  {
   "property": "C33",
   "status": "proved",
   "theorems": [
    "C33_runs",
    "C33_run_alone"
   ],
   "note": "For a run in any context and for a run alone. The special cases PIP and EI are excluded as in the claim (they are part of the reading relation of C34_reading)."
  },
  {
   "property": "C34",
   "status": "proved",
   "theorems": [
    "C34_removed",
    "C34_exchanged",
    "C34_reading"
   ],
   "note": "Removal and exchange of one comment or white space at a token boundary; C34_reading shows that the scanner computes exactly the specified reading."
  },
  {
   "property": "C35",
   "status": "proved",
   "theorems": [
    "C35_tokens",
    "C35_source"
   ],
   "note": "For all proper token lists and for all source texts."
  },
  {
   "property": "C36",
   "status": "proved",
   "theorems": [
    "C36_grouping"
   ],
   "note": "Operands are names, literals and parenthesised expressions; operators are the left- and right-associative binary operators and their assigning forms. Chained comparison and unary operators are outside the claim."
  },
  {
   "property": "C37",
   "status": "proved",
   "theorems": [
    "C37_final"
   ],
   "note": "For every token list and every continuation of it."
  },
  {
   "property": "C38",
   "status": "partial",
   "theorems": [
    "C38_whole_refuted",
    "C38_consumed_partial",
    "C38_whole_partial"
   ],
   "note": "Refuted: parsing of 1}2 stops at the brace and drops the rest without an error. Proved: this is the only way (nothing is dropped when the braces match)."
  },
  {
   "property": "C39",
   "status": "partial",
   "theorems": [
    "C39_source_partial",
    "C39_roundtrip_partial",
    "C39_text_partial",
    "C39_refuted"
   ],
   "note": "Refuted: negative number texts that negation prints differently (-007, -1.50, -0), and texts with a double quote in which a backslash precedes a letter or underscore (the repr is an interpolating string), do not read back. Proved for all other Scalars, every Range, nil, and Lists of these nested to any depth, both as a program of its own and through V RP."
  },
  {
   "property": "C40",
   "status": "partial",
   "theorems": [
    "C40_source_partial",
    "C40_roundtrip_partial",
    "C40_meaning_partial",
    "C40_parentheses",
    "C40_refuted"
   ],
   "note": "Refuted: a Block that ends in the literal of a semicolon or space, a command with two expressions of which the second starts with an operator, and an assignment with two colons are printed as texts that are not programs or do something else. Proved for all other code made of names, literals without interpolation, lists, parentheses, all operators with modifiers, comparison chains, commands and nested Blocks: its text is scanned and parsed as the same code up to parentheses around operands and is printed again as the same text, both as a program and through V RP. Such code has the same outcome from every state if no Block is written inside it. Missing: the last claim with nested Blocks, and Blocks that contain values (lambdas) or interpolated strings."
  },
  {
   "property": "C41",
   "status": "proved",
   "theorems": [
    "C41_read",
    "C41_assign",
    "C41_assign_ends",
    "C41_read_back"
   ],
   "note": "For every ordinary name, local or global (not q, r, and PIP with a text file, which are computed on reading). The right side may have any side effects."
  },
  {
   "property": "C42",
   "status": "partial",
   "theorems": [
    "C42_call_partial",
    "C42_stack_partial",
    "C42_refuted",
    "C42_locals_partial"
   ],
   "note": "Proved for calls during which SK/DK swallowed no TypeError of a key function; refuted otherwise (the scope of the failed key function stays open, execution.py:3628-3641). The callers' scopes always stay unchanged below."
  },
  {
   "property": "C43",
   "status": "partial",
   "theorems": [
    "C43_assignments_partial",
    "C43_start_partial",
    "C43_refuted"
   ],
   "note": "Proved as a refinement for all sequences of x:e and x@i...:e (side-effect-free right sides) from any state in which the variables share no objects, which a new interpreter is: the objects change exactly as a table of plain values does, and no other variable, constant, argument or literal changes. Refuted in general: arguments, literals in Blocks, SCALAR_ONE and the items made by M are shared objects."
  },
  {
   "property": "C44",
   "status": "proved",
   "theorems": [
    "C44_step",
    "C44_run",
    "C44_call"
   ],
   "note": "Function bodies and calls; statements whose expression has no value (commands) leave the history alone (part of tells)."
  },
  {
   "property": "C45",
   "status": "proved",
   "theorems": [
    "C45_names",
    "C45_simultaneous",
    "C45_swap"
   ],
   "note": "All name lists without repetition and every right side that is a Scalar, List, Range (finite or not) or nil."
  },
  {
   "property": "C46",
   "status": "proved",
   "theorems": [
    "C46_nested",
    "C46_end",
    "C46_left",
    "C46_right",
    "C46_comparison",
    "C46_empty"
   ],
   "note": "Any binary operator that associates to one side, on Scalars, Lists and finite Ranges, side effects included; the scan of an operator that returns variables is not modelled (C46_nested says what its results must be). Comparisons chain instead and have their own theorem; value-level theorems need items without Blocks."
  },
  {
   "property": "C47",
   "status": "partial",
   "theorems": [
    "C47_chain_partial",
    "C47_conjunction",
    "C47_refuted"
   ],
   "note": "The truth value and the single evaluation of each operand are proved for operands that are not Blocks; 'evaluation stops at the first false link' is refuted: all operands are evaluated before CHAIN runs (RVALS, execution.py:128-153)."
  },
  {
   "property": "C48",
   "status": "proved",
   "theorems": [
    "C48_and_false",
    "C48_and_true",
    "C48_or_true",
    "C48_or_false",
    "C48_if",
    "C48_counts"
   ],
   "note": "For all expressions, including ones that fail; errors are compared up to the conversion of TypeError by the enclosing operator."
  },
  {
   "property": "C49",
   "status": "proved",
   "theorems": [
    "C49_same",
    "C49_quiet"
   ],
   "note": "Two runs with and without -w give the same output, result and variables."
  },
  {
   "property": "C50",
   "status": "proved",
   "theorems": [
    "C50_split",
    "C50_any",
    "C50_complete",
    "C50_unclosed"
   ],
   "note": "For every line: C50_complete shows that the lines are exactly those of the specification or end inside quotes. Finding: an argument with an unclosed quote is dropped without a message (C50_unclosed)."
  },
  {
   "property": "C51",
   "status": "proved",
   "theorems": [
    "C51_print",
    "C51_nil",
    "C51_str",
    "C51_option",
    "C51_no_option",
    "C51_debug"
   ],
   "note": "All formats and values, for O, P and conversion to strings. Ranges inside Lists keep their own lines with -l and -S (they are not joined as nested Lists are)."
  },
  {
   "property": "C52",
   "status": "partial",
   "theorems": [
    "C52_inc_partial",
    "C52_dec_partial",
    "C52_inc_value_partial",
    "C52_dec_value_partial",
    "C52_refuted"
   ],
   "note": "Proved for every integer (and every non-Block value on which + and - succeed) while the shared constant SCALAR_ONE is intact; refuted without that hypothesis, because item assignment can change the constant."
  },
  {
   "property": "C53",
   "status": "partial",
   "theorems": [
    "C53_normal_partial",
    "C53_session_partial",
    "C53_call_partial",
    "C53_refuted"
   ],
   "note": "Refuted: functionCall closes its scope only on normal return (execution.py:400-418), so after a fatal error in a function the next REPL line runs in the scope of that function. Proved: without an error the scope is the old one; after an error the top-level scope and all callers' scopes are unchanged below the scopes left open."
  },
  {
   "property": "C54",
   "status": "proved",
   "theorems": [
    "C54_loop",
    "C54_for"
   ],
   "note": "L with every count (number, non-number, List length ...), F over every Scalar, List and finite Range; bodies may have any side effects, change the variable or fail."
  },
  {
   "property": "C55",
   "status": "partial",
   "theorems": [
    "C55_index_partial",
    "C55_count_partial",
    "C55_exponent_refuted"
   ],
   "note": "Proved for integers with a decimal fraction at the listed operators. Refuted for numbers printed with an exponent: the quotient 10^16/1 is 1e+16 and counts as 1."
  },
  {
   "property": "C56",
   "status": "partial",
   "theorems": [
    "C56_halve_partial",
    "C56_halve_refuted"
   ],
   "note": "Proved for |n| < 2^53. Refuted beyond: HV of 2^54+2 gives 2^53, because execution.py divides in floating point."
  },
  {
   "property": "C57",
   "status": "partial",
   "theorems": [
    "C57_push_front_partial",
    "C57_push_back_partial",
    "C57_pop_front",
    "C57_pop_back",
    "C57_inverse_partial",
    "C57_inverse_back_partial",
    "C57_fifo_partial",
    "C57_fifo_back_partial",
    "C57_refuted"
   ],
   "note": "Proved for values other than Blocks and pushed operands that are expressions without side effects; refuted for Blocks, which the operators turn into a new function instead of pushing them."
  },
  {
   "property": "C58",
   "status": "proved",
   "theorems": [
    "C58_text",
    "C58_number"
   ],
   "note": "Nested Lists of Scalars; Lists with Ranges, Patterns or nil inside, or a Scalar beside a List, are outside the hypothesis (C09 and C10 treat them)."
  },
  {
   "property": "C59",
   "status": "proved",
   "theorems": [
    "C59_runs",
    "C59_syntax"
   ],
   "note": "One operand; the form of V with an argument List calls the Block and is covered by C63 only as a call. Missing operators or names inside the text are ordinary run-time behaviour of its statements."
  },
  {
   "property": "C60",
   "status": "proved",
   "theorems": [
    "C60_fuel",
    "C60_io"
   ],
   "note": "More fuel never changes an outcome; input is consumed from the front only and output only grows."
  },
  {
   "property": "C61",
   "status": "proved",
   "theorems": [
    "C61_operator",
    "C61_expression"
   ],
   "note": "173 of the 234 operators of the table; excluded are those with side effects, calls, unevaluated operands, and those returning parts of their operands. C61_expression lifts it to nested expressions."
  },
  {
   "property": "C62",
   "status": "proved",
   "theorems": [
    "C62_if",
    "C62_while",
    "C62_till"
   ],
   "note": "I, W and T as equivalences between runs and an inductive description; the truth value is defined on object level so that cyclic Lists are covered too."
  },
  {
   "property": "C63",
   "status": "proved",
   "theorems": [
    "C63_call"
   ],
   "note": "Equivalence between a call and entering a scope, running the body, leaving the scope; arguments must denote values (no cyclic Lists)."
  },
  {
   "property": "C64",
   "status": "proved",
   "theorems": [
    "C64_line",
    "C64_end",
    "C64_push_back",
    "C64_push_front"
   ],
   "note": "Plain reading and the operators PU and PB; other operators read operands once by C61."
  },
  {
   "property": "C65",
   "status": "proved",
   "theorems": [
    "C65_value",
    "C65_command",
    "C65_line"
   ],
   "note": "Value and command statements; keyboard interrupts are not modelled."
  },
  {
   "property": "C66",
   "status": "proved",
   "theorems": [
    "C66_lines"
   ],
   "note": "End of input raises EOFError in pip.py and ends the loop in the model."
  },
  {
   "property": "C67",
   "status": "proved",
   "theorems": [
    "C67_readlines"
   ],
   "note": "Reading code from standard input (without -e, -c or a file) is not modelled."
  },
  {
   "property": "C68",
   "status": "proved",
   "theorems": [
    "C68_grammar",
    "C68_source",
    "C68_unambiguous"
   ],
   "note": "Stated for token lists as the scanner produces them (C34 relates these to texts). A closing brace at top level ends the program (see C38)."
  },
  {
   "property": "C69",
   "status": "proved",
   "theorems": [
    "C69_completed",
    "C69_bad",
    "C69_incomplete",
    "C69_line",
    "C69_no_line"
   ],
   "note": "Token lists and lines of text. An unclosed literal or comment also makes the REPL ask for more, even after bad code; the claim about lines is for closed ones."
  },
  {
   "property": "C70",
   "status": "proved",
   "theorems": [
    "C70_loop",
    "C70_session",
    "C70_quit",
    "C70_end",
    "C70_named",
    "C70_error"
   ],
   "note": "Input lines contain no newline characters. Error messages (stderr) and KeyboardInterrupt are not modelled; what statements do is described by C65 and the properties of statements."
  },
  {
   "property": "C71",
   "status": "partial",
   "theorems": [
    "C71_literal_pattern",
    "C71_find_all_refuted"
   ],
   "note": "All of the statement holds except for @*: places of a text may overlap, places of a Pattern do not (C71_find_all_refuted)."
  },
  {
   "property": "C72",
   "status": "partial",
   "theorems": [
    "C72_one_scan",
    "C72_digits_refuted"
   ],
   "note": "The Pattern must be inside the modelled part of Python's re syntax (that is what the first hypothesis says). The clause on ^ is for Patterns with at most 18 groups and without non-ASCII digits and for a non-empty regex; a reference followed by an Arabic digit is renumbered wrongly (C72_digits_refuted)."
  },
  {
   "property": "C73",
   "status": "partial",
   "theorems": [
    "C73_operators",
    "C73_empty_alternatives_refuted",
    "C73_flags_refuted"
   ],
   "note": "Holds except for repetitions of the empty Pattern (Python rejects some of them, warns about others), the alternative of two empty Patterns, which is not bracketed when more is added (C73_empty_alternatives_refuted), and flags, which spread to the whole Pattern (C73_flags_refuted). Which text is matched at the first place, if there are several, is not claimed. Repetition counts are below 2^32-1."
  },
  {
   "property": "C74",
   "status": "partial",
   "theorems": [
    "C74_ampersand",
    "C74_brackets_refuted"
   ],
   "note": "For Patterns that are well-formed by themselves (^ accepts them), have at most 18 groups and no non-ASCII digits. A regex such as a)(b breaks out of the bracket put around it (C74_brackets_refuted)."
  },
  {
   "property": "C75",
   "status": "partial",
   "theorems": [
    "C75_left",
    "C75_right",
    "C75_both",
    "C75_alternatives_refuted",
    "C75_newline_refuted",
    "C75_flags_refuted"
   ],
   "note": "For Patterns whose last step is not the comma, and for <| and || for texts without newlines. Refuted without these: ^ belongs only to the first alternative of a|b (C75_alternatives_refuted), $ also matches before a final newline (C75_newline_refuted), and the flags of the Pattern are ignored (C75_flags_refuted)."
  },
  {
   "property": "C76",
   "status": "partial",
   "theorems": [
    "C76_first",
    "C76_place",
    "C76_whole",
    "C76_all",
    "C76_matches",
    "C76_bracket_refuted",
    "C76_shared_refuted"
   ],
   "note": "For Patterns that are well-formed by themselves (^ accepts them), have at most 18 groups and no non-ASCII digits; for @ the operands are expressions without side effects. A regex such as a)(b breaks out of the bracket that $0 stands for (C76_bracket_refuted). $0 is the same object as the last item of the result of @, so an item assignment to that result changes it (C76_shared_refuted)."
  },
  {
   "property": "C77",
   "status": "proved",
   "theorems": [
    "C77_map",
    "C77_zip",
    "C77_enumerate",
    "C77_pairs",
    "C77_join",
    "C77_flatten",
    "C77_sum",
    "C77_expression",
    "C77_map_value",
    "C77_zip_value",
    "C77_enumerate_value",
    "C77_pairs_value",
    "C77_unpack_value",
    "C77_map_map_value",
    "C77_coordinates"
   ],
   "note": "Functions are Blocks that return normally. For MS the calls must not change existing objects; MU, MM and MC are stated for functions without effects. Functions without effects are described by what they compute (C77_expression gives this for expressions). Lists of functions and constants as left operand of M are not part of the claim."
  },
  {
   "property": "C78",
   "status": "proved",
   "theorems": [
    "C78_filter",
    "C78_filter_not",
    "C78_enumerate",
    "C78_indices",
    "C78_join",
    "C78_filter_value",
    "C78_filter_not_value",
    "C78_enumerate_value",
    "C78_indices_value",
    "C78_unpack_value"
   ],
   "note": "Functions are Blocks that return normally. FU is stated for functions without effects."
  },
  {
   "property": "C79",
   "status": "proved",
   "theorems": [
    "C79_ascending",
    "C79_descending",
    "C79_scalars",
    "C79_scalars_descending"
   ],
   "note": "Keys that are Patterns, Blocks, nil or infinite Ranges are excluded. The key function returns normally (a TypeError in it is swallowed, see C42)."
  },
  {
   "property": "C80",
   "status": "proved",
   "theorems": [
    "C80_power",
    "C80_zero_power",
    "C80_simple",
    "C80_sign"
   ],
   "note": "Integer numerals; negative exponents of other bases and powers of floats are not part of the claim."
  },
  {
   "property": "C81",
   "status": "partial",
   "theorems": [
    "C81_round",
    "C81_nearest",
    "C81_unique",
    "C81_infinite",
    "C81_multiple_partial",
    "C81_zero",
    "C81_multiple_refuted",
    "C81_nearest_refuted"
   ],
   "note": "The one-operand forms hold for every Scalar that stands for a finite number, except RN of an integer of 1024 bits or more (C81_nearest_refuted: OverflowError). With two operands the claim holds for integers below 2^53 (RN with two operands is not covered); C81_multiple_refuted: (10^17+1) |< 7 is 100000000000000002, larger than its operand."
  },
  {
   "property": "C82",
   "status": "proved",
   "theorems": [
    "C82_each",
    "C82_initial",
    "C82_title",
    "C82_swap_twice",
    "C82_other"
   ],
   "note": "ASCII texts; the model's case tables do not go beyond ASCII."
  },
  {
   "property": "C83",
   "status": "partial",
   "theorems": [
    "C83_wrap",
    "C83_delete",
    "C83_trim",
    "C83_trim_one",
    "C83_trim_ends_partial",
    "C83_trim_ends_refuted",
    "C83_join_wrap",
    "C83_transliterate",
    "C83_translated_unique",
    "C83_columns"
   ],
   "note": "TM with a Range holds if no more is taken off the end than there is; C83_trim_ends_refuted: \"abc\" TM 0,5 is \"a\". For TR the characters of the new text must be Unicode code points (all Python texts are)."
  },
  {
   "property": "C84",
   "status": "partial",
   "theorems": [
    "C84_index",
    "C84_index_total",
    "C84_indices",
    "C84_values",
    "C84_slice",
    "C84_range_refuted"
   ],
   "note": "C84_range_refuted: RA on a Range raises TypeError and on an empty Scalar or List ZeroDivisionError, which end the program. The value is not a Block."
  },
  {
   "property": "C85",
   "status": "proved",
   "theorems": [
    "C85_grids",
    "C85_reflect",
    "C85_palindromize",
    "C85_append",
    "C85_append_list",
    "C85_inclusive",
    "C85_lengths"
   ],
   "note": "Counts and bounds are integer numerals; the appended value of AE and PE is not a Block."
  },
  {
   "property": "C86",
   "status": "proved",
   "theorems": [
    "C86_range",
    "C86_range_all",
    "C86_range_empty",
    "C86_below",
    "C86_below_all",
    "C86_below_empty",
    "C86_below_each",
    "C86_choice",
    "C86_choice_all",
    "C86_choice_empty",
    "C86_choice_object",
    "C86_shuffle",
    "C86_shuffle_all",
    "C86_shuffle_objects",
    "C86_variable",
    "C86_variable_all",
    "C86_seed",
    "C86_seed_forgets",
    "C86_seed_literal"
   ],
   "note": "Says nothing about how likely each result is: that is a property of Python's generator, which the model leaves open."
  },
  {
   "property": "C87",
   "status": "proved",
   "theorems": [
    "C87_pick",
    "C87_total",
    "C87_empty",
    "C87_permutation"
   ],
   "note": "The index is an expression without side effects (means)."
  },
  {
   "property": "C88",
   "status": "proved",
   "theorems": [
    "C88_entered",
    "C88_expression",
    "C88_statement",
    "C88_recurse"
   ],
   "note": "A caught TypeError can leave scopes of unfinished calls behind (see C42); then RE means the innermost of these, so the theorems about what is kept exclude it."
  },
  {
   "property": "C89",
   "status": "proved",
   "theorems": [
    "C89_map",
    "C89_loop",
    "C89_replace"
   ],
   "note": "For the Patterns of C76: at most 18 groups, only ASCII digits, supported by the model of regular expressions."
  },
  {
   "property": "C90",
   "status": "proved",
   "theorems": [
    "C90_yank",
    "C90_output",
    "C90_print",
    "C90_nil"
   ],
   "note": ""
  },
  {
   "property": "C91",
   "status": "proved",
   "theorems": [
    "C91_same",
    "C91_equivalence"
   ],
   "note": "Blocks are equal if their tokens are: what this says about the texts they print is not stated."
  },
  {
   "property": "C92",
   "status": "proved",
   "theorems": [
    "C92_code",
    "C92_call",
    "C92_pointwise"
   ],
   "note": "The pointwise theorem is about the operators of C61 and operands without statements; for all building operators and all operands the code of the new function is given, and a call of it is described by C63. Operators that take lvalues (f_vals) are not covered."
  },
  {
   "property": "C93",
   "status": "proved",
   "theorems": [
    "C93_same",
    "C93_value"
   ],
   "note": "For outcomes that are results; which error is raised when one is raised is not compared. The precedence and associativity recorded in the copy of the operator are kept, since printing a function built by it shows them."
  },
  {
   "property": "C94",
   "status": "proved",
   "theorems": [
    "C94_mapped"
   ],
   "note": "Operators that call functions, print or assign are not covered."
  },
  {
   "property": "C95",
   "status": "proved",
   "theorems": [
    "C95_call",
    "C95_unique",
    "C95_factorial",
    "C95_gcd"
   ],
   "note": "One direction: calls for which the semantics gives no value (errors, endless recursion, side effects) are not described. Python's recursion limit is not modelled (see DESIGN.md). Folds, filters and operators that set the match variables are outside the fragment."
  },
  {
   "property": "C96",
   "status": "proved",
   "theorems": [
    "C96_value",
    "C96_unique",
    "C96_sum",
    "C96_reverse"
   ],
   "note": "One direction, as C95. @>e uses the interpreter's shared constant 1 and is described while that constant is 1 (C52 is about programs that change it)."
  },
  {
   "property": "C97",
   "status": "partial",
   "theorems": [
    "C97_item",
    "C97_slice_partial",
    "C97_slice_refuted",
    "C97_range_refuted"
   ],
   "note": "The slices are proved for operands that are not lists of variables; for those, and for Ranges as indices of empty sequences, the statement is refuted (C97_slice_refuted, C97_range_refuted)."
  },
  {
   "property": "C98",
   "status": "proved",
   "theorems": [
    "C98_call",
    "C98_unique",
    "C98_program",
    "C98_gcd",
    "C98_sum",
    "C98_count"
   ],
   "note": "One direction: what the semantics describes happens. It does not describe assignments to items, reading input, W and T in other forms than commands, or errors; those have properties of their own."
  },
  {
   "property": "C99",
   "status": "proved",
   "theorems": [
    "C99_total",
    "C99_digits",
    "C99_factorial",
    "C99_running"
   ],
   "note": "Each is proved from the semantics of C98 and the arithmetic of C95."
  },
  {
   "property": "C100",
   "status": "proved",
   "theorems": [
    "C100_divisors",
    "C100_sum",
    "C100_list",
    "C100_prime"
   ],
   "note": "Proved from the semantics of C98 (which now has filters, Y and operators whose operands have effects) and facts about divisibility from the standard library."
  },
  {
   "property": "C101",
   "status": "proved",
   "theorems": [
    "C101_fib",
    "C101_power",
    "C101_down"
   ],
   "note": "Proved from the semantics of C98, by induction over the rounds of the loops."
  },
  {
   "property": "C102",
   "status": "proved",
   "theorems": [
    "C102_call",
    "C102_program",
    "C102_up",
    "C102_choice"
   ],
   "note": "Not ending means that the model runs out of fuel whatever the fuel is; by C60 more fuel never changes a result. The statements before and inside the loop are those of C98. Loops that are endless because of L or F over an infinite Range, and endless recursion (which Python ends with RecursionError), are not described."
  },
  {
   "property": "C103",
   "status": "proved",
   "theorems": [
    "C103_below",
    "C103_root"
   ],
   "note": "Proved from the semantics of C98, which describes chains of comparisons whose operands have effects, by induction over the rounds."
  },
  {
   "property": "C104",
   "status": "proved",
   "theorems": [
    "C104_stdin",
    "C104_any",
    "C104_readlines",
    "C104_file"
   ],
   "note": "The files are a function from names to texts (what open(name).read() returns). The prompts of an interactive start and -v are not modelled."
  },
  {
   "property": "C105",
   "status": "proved",
   "theorems": [
    "C105_argument",
    "C105_program",
    "C105_all",
    "C105_integers",
    "C105_gcd",
    "C105_lines"
   ],
   "note": "For readable values (SpecRepr.v); C39_refuted shows values whose repr is read as another value. An argument that evaluates to an Lval, such as a variable name, is not modelled; these arguments never do."
  }
 ]
}