{"id": "C01", "title": "Indexing is cyclic", "statement": "Indexing a non-empty Scalar, List or finite Range of length n with any integer i returns the element at position i mod n (mathematical, non-negative remainder); indexing an empty one warns and gives nil.", "quantifier": "every Scalar/List/finite Range and every integer index, of any sign and magnitude", "why_tests_cant": "unbounded index magnitude and sequence length", "anchors": ["ptypes.py:Scalar.__getitem__", "ptypes.py:List.__getitem__", "ptypes.py:Range.__getitem__"]}
{"id": "C02", "title": "A slice is a window of the infinitely repeated sequence", "statement": "Slicing a non-empty Scalar or List with integer or missing bounds terminates and returns exactly the window [start', stop') of the sequence repeated forever in both directions, where a negative bound given by the user counts from the end once; missing bounds mean 0 and the length; an empty window gives the empty Scalar/List; a slice of an empty sequence is empty (nil with a warning for the @ operator).", "quantifier": "every sequence and every pair of optional integer bounds", "why_tests_cant": "bounds are unbounded integers and the code has two data-dependent while loops", "anchors": ["ptypes.py:Scalar.__getitem__", "ptypes.py:List.__getitem__"]}
{"id": "C03", "title": "A finite Range behaves as the List of its integers", "statement": "Length, iteration, truth value, indexing, slicing, membership of integers and position lookup on a finite Range agree with the same operations on the List of integers lower..upper-1 (a missing lower bound is 0), including negative and out-of-range bounds.", "quantifier": "every finite Range, every index, slice, and searched integer", "why_tests_cant": "bounds are arbitrary integers; the code has separate cases for in-range and out-of-range slices", "anchors": ["ptypes.py:Range.__getitem__", "ptypes.py:Range.__len__", "ptypes.py:Range.__iter__", "ptypes.py:Range.__contains__", "ptypes.py:Range.index"]}
{"id": "C04", "title": "An infinite Range behaves as the infinite sequence lower, lower+1, ...", "statement": "For an infinite Range, a non-negative index i gives lower+i, a negative index or slice bound gives nil, a slice with non-negative bounds gives the corresponding window, membership of an integer holds exactly when it is at least lower, and the Range is always true.", "quantifier": "every infinite Range and every index/slice/integer", "why_tests_cant": "the sequence is infinite, no test enumerates it", "anchors": ["ptypes.py:Range.__getitem__", "ptypes.py:Range.__contains__", "ptypes.py:Range.__bool__"]}
{"id": "C05", "title": "Adding an integer to a Range shifts every element", "statement": "Range + integer, integer + Range and Range - integer yield a Range whose elements are those of the original shifted by the integer, for finite and infinite Ranges alike.", "quantifier": "every Range (finite or infinite) and every integer Scalar", "why_tests_cant": "unbounded bounds and offsets; includes infinite Ranges", "anchors": ["execution.py:ProgramState.ADD", "execution.py:ProgramState.SUB", "ptypes.py:Range.__init__"]}
{"id": "C06", "title": "Integer arithmetic is exact at any size", "statement": "For Scalars holding integer numerals, + - * return the numeral of the exact mathematical sum, difference and product; converting an integer to a Scalar and back to a number is the identity.", "quantifier": "every pair of integers, of any number of digits", "why_tests_cant": "integers are unbounded; an overflow or float rounding shows only at sizes no test reaches", "anchors": ["execution.py:ProgramState.ADD", "execution.py:ProgramState.SUB", "execution.py:ProgramState.MUL", "ptypes.py:Scalar.toNumber", "ptypes.py:Scalar.__init__"]}
{"id": "C07", "title": "Integer division and modulus satisfy the floor law", "statement": "For integer Scalars a and b with b non-zero, (a//b)*b + a%b = a, and a%b is zero or has the sign of b and is smaller than b in magnitude; with b zero both operators emit a warning and return nil instead of failing.", "quantifier": "every pair of integers", "why_tests_cant": "all sign combinations at all magnitudes", "anchors": ["execution.py:ProgramState.INTDIV", "execution.py:ProgramState.MOD"]}
{"id": "C08", "title": "Numeric comparison of Scalars is a total order on their numeric values", "statement": "For any two Scalars exactly one of x<y, x=y, x>y is true; x<=y is x<y or x=y; x>=y is the negation of x<y; < is transitive; this holds across integers, decimals and non-numeric strings (which count as 0).", "quantifier": "every pair and triple of strings", "why_tests_cant": "strings are arbitrary and mix exact integers with floating-point numerals", "anchors": ["execution.py:ProgramState.NUMLESS", "execution.py:ProgramState.NUMEQUAL", "execution.py:ProgramState.NUMGREATER", "execution.py:ProgramState.NUMLESSEQ", "execution.py:ProgramState.NUMGREATEREQ", "ptypes.py:Scalar.toNumber"]}
{"id": "C09", "title": "Numeric comparisons are mutually consistent on all values", "statement": "For all values other than Blocks (Scalars, arbitrarily nested Lists, Ranges including infinite ones, Patterns, nil): x<y equals y>x, x<=y equals y>=x, and x!=y is the negation of x=y. With a Block operand the operators compare nothing: they build a new function.", "quantifier": "every pair of Pip values", "why_tests_cant": "values nest arbitrarily deep and mix Lists with Ranges", "anchors": ["execution.py:ProgramState.NUMLESS", "execution.py:ProgramState.NUMGREATER", "execution.py:ProgramState.NUMNOTEQUAL", "execution.py:ProgramState.NUMEQUAL", "execution.py:ProgramState.NUMLESSEQ", "execution.py:ProgramState.NUMGREATEREQ"]}
{"id": "C10", "title": "Ranges with the same elements are numerically equal", "statement": "Two Ranges that contain exactly the same integers compare = (numeric equality), and for any two Ranges exactly one of < = > holds.", "quantifier": "every pair of Ranges", "why_tests_cant": "bounds are unbounded and one sequence has several representations", "anchors": ["execution.py:ProgramState.NUMEQUAL", "ptypes.py:Range.__eq__"]}
{"id": "C11", "title": "String comparison is the lexicographic total order", "statement": "The string comparison operators on Scalars decide the code-point lexicographic order: exactly one of LT, Q, GT holds, LE and GE are their complements, and the order is transitive.", "quantifier": "every pair and triple of strings", "why_tests_cant": "strings are unbounded", "anchors": ["execution.py:ProgramState.STRLESS", "execution.py:ProgramState.STREQUAL", "execution.py:ProgramState.STRGREATER", "execution.py:ProgramState.STRLESSEQ", "execution.py:ProgramState.STRGREATEREQ"]}
{"id": "C12", "title": "Truth value of Scalars", "statement": "A Scalar is false exactly when it is empty or a decimal form of zero; in particular the Scalar of an integer is false exactly when the integer is 0.", "quantifier": "every string / every integer", "why_tests_cant": "the zero forms are an infinite regular language", "anchors": ["ptypes.py:Scalar.__bool__"]}
{"id": "C13", "title": "To-base and from-base are inverse", "statement": "For every integer n and every base 2..36, converting n to that base and back yields n; the digits produced are canonical (no leading zero, each smaller than the base).", "quantifier": "every integer and every legal base", "why_tests_cant": "unbounded integers", "anchors": ["execution.py:ProgramState.TOBASE", "execution.py:ProgramState.FROMBASE"]}
{"id": "C14", "title": "To-digits and from-digits are inverse", "statement": "For every integer n and every base b of at least 2, the digit list of n in base b converts back to n, and for non-negative n each digit is between 0 and b-1 with no leading zero.", "quantifier": "every integer and every base >= 2", "why_tests_cant": "unbounded integers and bases", "anchors": ["execution.py:ProgramState.TODIGITS", "execution.py:ProgramState.FROMDIGITS"]}
{"id": "C15", "title": "Bitwise operators compute two's-complement bit operations on integers", "statement": "BA, BO, BX and BN on integer Scalars act bit by bit in infinite two's complement; BX with the same operand twice is the identity and BN is an involution.", "quantifier": "every pair of integers and every bit position", "why_tests_cant": "unbounded integers", "anchors": ["execution.py:ProgramState.BITWISEAND", "execution.py:ProgramState.BITWISEOR", "execution.py:ProgramState.BITWISEXOR", "execution.py:ProgramState.BITWISENOT"]}
{"id": "C16", "title": "Sorting returns a sorted stable rearrangement", "statement": "SN/DN (numeric), SS/DS (string) return nil or a permutation of the input that is ordered by the key and keeps the input order of elements with equal keys.", "quantifier": "every List/Range/Scalar", "why_tests_cant": "all lengths and all key collisions", "anchors": ["execution.py:ProgramState.SORTNUM", "execution.py:ProgramState.DESCENDINGNUM", "execution.py:ProgramState.SORTSTRING", "execution.py:ProgramState.DESCENDINGSTRING"]}
{"id": "C17", "title": "Minimum and maximum are attained bounds", "statement": "MX/MN of a non-empty List of Scalars return an element of it whose number bounds every other element's number; on an empty argument they return nil with a warning.", "quantifier": "every List of Scalars", "why_tests_cant": "all lengths, ties, and mixed integer/decimal numerals", "anchors": ["execution.py:ProgramState.MAX", "execution.py:ProgramState.MIN"]}
{"id": "C18", "title": "Unique keeps exactly the first occurrences", "statement": "UQ of a List (or Scalar) contains every distinct element exactly once, in order of first occurrence, and applying it twice changes nothing.", "quantifier": "every List and Scalar", "why_tests_cant": "all lengths and duplicate patterns", "anchors": ["execution.py:ProgramState.UNIQUE"]}
{"id": "C19", "title": "Weave inverts unweave", "statement": "For every List, Scalar or finite Range x and every integer k >= 1, weaving the k strands produced by UW gives back x; no element is lost or duplicated.", "quantifier": "every sequence and every strand count k >= 1", "why_tests_cant": "length and k are unbounded and lengths need not divide", "anchors": ["execution.py:ProgramState.WEAVE", "execution.py:ProgramState.UNWEAVE"]}
{"id": "C20", "title": "Grouping partitions the sequence", "statement": "x<>n for positive n cuts x into consecutive chunks of length n (the last may be shorter but is not empty) whose concatenation is x; for negative n the chunks concatenate to the same items, taken from the end.", "quantifier": "every sequence and every non-zero integer chunk size", "why_tests_cant": "length and chunk size unbounded", "anchors": ["execution.py:ProgramState.GROUP"]}
{"id": "C21", "title": "Chop yields exactly n chunks that partition the sequence", "statement": "x CH n for a positive integer n yields n consecutive chunks, of lengths differing by at most one, whose concatenation is x.", "quantifier": "every sequence and every positive n", "why_tests_cant": "the code accumulates floating-point positions; errors show only for particular lengths", "anchors": ["execution.py:ProgramState.CHOP"]}
{"id": "C22", "title": "Reverse is an involution; reflections are palindromes", "statement": "RV is an involution on Scalars and Lists; RF and PZ return a palindrome that starts with x, of length 2n and 2n-1 respectively.", "quantifier": "every Scalar and List", "why_tests_cant": "all lengths", "anchors": ["execution.py:ProgramState.REVERSE", "execution.py:ProgramState.REFLECT", "execution.py:ProgramState.PALINDROMIZE"]}
{"id": "C23", "title": "Joining undoes splitting", "statement": "Splitting a string on a non-empty separator and joining the pieces on it gives the string back, and no piece contains the separator; splitting the join of pieces that do not contain a one-character separator gives the pieces back.", "quantifier": "every string and separator", "why_tests_cant": "unbounded strings, overlapping separators", "anchors": ["execution.py:ProgramState.SPLIT", "execution.py:ProgramState.JOIN"]}
{"id": "C24", "title": "Stripping removes exactly the maximal margin", "statement": "The strip operators ||, |> and <| (whitespace form and character-set form) return the string without its longest prefix/suffix of strip characters: the result has no strip character at the stripped end(s) and only strip characters were removed.", "quantifier": "every string and every strip set", "why_tests_cant": "unbounded strings and sets", "anchors": ["execution.py:ProgramState.STRIP", "execution.py:ProgramState.LSTRIP", "execution.py:ProgramState.RSTRIP"]}
{"id": "C25", "title": "Flatten-all returns the leaves in order", "statement": "FA (full flatten) of any nested List returns the flat List of its leaves in left-to-right order, contains no List, and is idempotent.", "quantifier": "every List, nested to any depth", "why_tests_cant": "nesting depth unbounded", "anchors": ["execution.py:ProgramState.FLATTENALL", "execution.py:ProgramState.FLATTEN"]}
{"id": "C26", "title": "Zip transposes", "statement": "Z of a List of Lists has as many rows as the shortest member, and row i holds the i-th item of each; ZD has as many rows as the longest, with missing items filled by the default; on rectangular input zipping twice is the identity.", "quantifier": "every List of Lists", "why_tests_cant": "ragged shapes of any size", "anchors": ["execution.py:ProgramState.ZIP", "execution.py:ProgramState.ZIPDEFAULT"]}
{"id": "C27", "title": "Cartesian products, combinations and permutations are complete", "statement": "CP of a List of sequences lists every choice tuple exactly once in lexicographic position order (count = product of lengths); CB gives every size-k sub-multiset in order (count n choose k); PM gives every rearrangement (count n!).", "quantifier": "every List of sequences / sequence / size", "why_tests_cant": "counts grow without bound", "anchors": ["execution.py:ProgramState.CARTESIANPRODUCT", "execution.py:ProgramState.COMBINATIONS", "execution.py:ProgramState.PERMUTATIONS"]}
{"id": "C28", "title": "Find and find-all report exactly the occurrences", "statement": "@? returns the least position where the item (or substring) occurs, or nil; @* returns all positions in increasing order and terminates, also for the empty needle.", "quantifier": "every haystack and needle", "why_tests_cant": "unbounded strings, overlapping occurrences, a loop with data-dependent exit", "anchors": ["execution.py:ProgramState.FIND", "execution.py:ProgramState.FINDALL"]}
{"id": "C29", "title": "Splitting at indices loses nothing", "statement": "x^@i (single index or List of indices) returns pieces whose concatenation, in order, is x, for indices of any sign or size.", "quantifier": "every sequence and every List of indices", "why_tests_cant": "indices unbounded, unsorted, duplicated, negative", "anchors": ["execution.py:ProgramState.SPLITAT"]}
{"id": "C30", "title": "Remove deletes every occurrence", "statement": "RM of an item from a List deletes exactly the elements equal to it and keeps the rest in order; RM of a substring from a Scalar leaves no occurrence of it.", "quantifier": "every List/Scalar and every removed item", "why_tests_cant": "occurrences may be created by the deletion itself", "anchors": ["execution.py:ProgramState.REMOVE"]}
{"id": "C31", "title": "Item-wise operators recurse into Lists position by position", "statement": "An item-wise binary operator applied to a List and a non-iterable is applied to each element; applied to two Lists it is applied to corresponding elements and the excess elements of the longer List are kept unchanged; applied to one List it maps over it. The shape of the result is thus determined by the shapes of the operands.", "quantifier": "every item-wise operator, every pair of nested Lists", "why_tests_cant": "nesting and length are unbounded", "anchors": ["execution.py:ProgramState.evaluate"]}
{"id": "C32", "title": "Scanning is total and loses no program text", "statement": "Tokenizing any string terminates with a list of proper tokens or an unterminated-literal error; no end-of-program marker is produced before the end, so no suffix of a program is silently dropped by the scanner; a character is ignored only if it is 'j' or starts no token.", "quantifier": "every source string", "why_tests_cant": "the input space is all Unicode strings", "anchors": ["scanning.py:tokenize", "scanning.py:newToken", "scanning.py:scan"]}
{"id": "C33", "title": "Uppercase runs are split into two-letter tokens", "statement": "A maximal run of uppercase letters that does not involve the PIP and EI special cases is tokenized as two-letter tokens, preceded by a single one-letter token iff its length is odd.", "quantifier": "every run of uppercase letters", "why_tests_cant": "run length unbounded", "anchors": ["scanning.py:tokenize"]}
{"id": "C34", "title": "Comments and layout do not affect the program", "statement": "Removing a block comment, a line comment or extra whitespace between tokens does not change the resulting token list.", "quantifier": "every source string with a comment/whitespace at a token boundary", "why_tests_cant": "comment bodies are arbitrary strings", "anchors": ["scanning.py:tokenize"]}
{"id": "C35", "title": "Parsing is total and never reads past the end", "statement": "For every token list produced by the scanner the parser terminates and either returns a program or reports a bad-syntax or incomplete-syntax error; it never reads beyond the end marker.", "quantifier": "every token list", "why_tests_cant": "token lists are unbounded and the parser is mutually recursive", "anchors": ["parsing.py:parse", "parsing.py:parseStatement", "parsing.py:parseExpr", "parsing.py:parseOperand", "parsing.py:parseBlock", "parsing.py:parseNameList"]}
{"id": "C36", "title": "Operator precedence and associativity are respected", "statement": "For every expression made of operands joined by left- or right-associative binary operators, the parsed tree lists the operands and operators in source order and every subexpression is grouped as the precedence table and associativity demand; such a tree is unique.", "quantifier": "every sequence of binary operators from the operator table", "why_tests_cant": "sequences of operators are unbounded; tests cover only a few pairs", "anchors": ["parsing.py:parseExpr", "parsing.py:bubble", "operators.py:precedenceTable"]}
{"id": "C37", "title": "A bad-syntax error is final", "statement": "In the REPL, once a prefix of the input is rejected with a bad-syntax error (rather than incomplete syntax), no continuation of the input could have been parsed: the error is never premature.", "quantifier": "every token list and every continuation", "why_tests_cant": "quantifies over all continuations", "anchors": ["parsing.py:parse", "parsing.py:parseOperand", "pip.py:pip"]}
{"id": "C38", "title": "The whole program is parsed", "statement": "If parsing succeeds then every token of the program belongs to the parsed program; no tail of the source is discarded.", "quantifier": "every source program", "why_tests_cant": "all programs", "anchors": ["parsing.py:parse"]}
{"id": "C39", "title": "Printing a value and evaluating the text gives the value back", "statement": "For every value built from Scalars, Lists, Ranges and nil, scanning, parsing and evaluating its repr (RP) yields an equal value.", "quantifier": "every nested value", "why_tests_cant": "strings and nesting are unbounded", "anchors": ["ptypes.py:Scalar.__repr__", "ptypes.py:List.__repr__", "ptypes.py:Range.__repr__", "scanning.py:scan", "parsing.py:parse", "execution.py:ProgramState.evaluate"]}
{"id": "C40", "title": "Printing a Block and parsing the text gives the Block back", "statement": "The repr of a Block, scanned and parsed, yields a Block with the same meaning.", "quantifier": "every Block", "why_tests_cant": "all programs", "anchors": ["ptypes.py:Block.__repr__", "parsing.py:unparse", "parsing.py:unparseExpr"]}
{"id": "C41", "title": "Reading a variable returns the last value assigned to it", "statement": "After a value is assigned to a variable, reading that variable yields an equal value, and every other variable still reads as before, for global and local names alike.", "quantifier": "every interpreter state, pair of variable names and value", "why_tests_cant": "states are unbounded", "anchors": ["execution.py:ProgramState.assign", "execution.py:ProgramState.getRval", "execution.py:ProgramState.varTable"]}
{"id": "C42", "title": "Function calls do not disturb the caller's local variables", "statement": "Whatever a function body does, when the call returns the caller's local scope is current again, at the same depth, and all local names of all callers are bound as before.", "quantifier": "every function body, argument list and state", "why_tests_cant": "function bodies are arbitrary programs, recursion is unbounded", "anchors": ["execution.py:ProgramState.functionCall", "execution.py:ProgramState.openScope", "execution.py:ProgramState.closeScope"]}
{"id": "C43", "title": "Variables have value semantics", "statement": "Modifying one variable in place (l@i:v) never changes the value of a different variable, a constant of the language, or a literal in the program.", "quantifier": "every program history", "why_tests_cant": "aliasing shows only after particular sequences of operations", "anchors": ["execution.py:ProgramState.MAP", "execution.py:ProgramState.assign", "ptypes.py:List.__init__", "execution.py:SCALAR_ONE"]}
{"id": "C44", "title": "History variables hold the last three expression results", "statement": "After any sequence of expression statements in a function body, $_ , $__ and $___ hold the last, second-last and third-last of their values.", "quantifier": "every sequence of statement values", "why_tests_cant": "sequence length unbounded", "anchors": ["execution.py:ProgramState.updateHistoryVars", "execution.py:ProgramState.functionCall"]}
{"id": "C45", "title": "Destructuring and swap are simultaneous", "statement": "[x1 ... xn]:value assigns item i of the value to xi (nil if missing) with the right side read before any assignment, so [x y]:[y x] and x::y exchange two variables.", "quantifier": "every state and pair of distinct variables / every name list", "why_tests_cant": "all lengths and values", "anchors": ["execution.py:ProgramState.assign", "execution.py:ProgramState.ASSIGN", "execution.py:ProgramState.SWAP"]}
{"id": "C46", "title": "Fold and scan agree", "statement": "For every binary operator and every non-empty sequence, the fold meta-operator returns the left (or right) nested application and is the last (first) element of the corresponding scan; the scan has the length of the sequence.", "quantifier": "every operator and sequence", "why_tests_cant": "sequence length unbounded", "anchors": ["execution.py:ProgramState.FOLDMETA", "execution.py:ProgramState.SCANMETA"]}
{"id": "C47", "title": "Chained comparison is the conjunction of its links", "statement": "x1 op1 x2 op2 ... is true exactly when every adjacent comparison is true; each operand is evaluated at most once and evaluation stops at the first false link.", "quantifier": "every chain of comparison operators", "why_tests_cant": "chain length unbounded", "anchors": ["execution.py:ProgramState.CHAIN"]}
{"id": "C48", "title": "Logical operators short-circuit", "statement": "x&y evaluates y only when x is true and returns x otherwise; x|y evaluates y only when x is false; the conditional expression evaluates exactly one branch.", "quantifier": "every pair of expressions and every state", "why_tests_cant": "expressions have arbitrary side effects", "anchors": ["execution.py:ProgramState.AND", "execution.py:ProgramState.OR", "execution.py:ProgramState.IFTE"]}
{"id": "C49", "title": "Enabling warnings does not change program behaviour", "statement": "Running a program with and without the warnings flag produces the same output, the same final state and the same result; only diagnostic output differs.", "quantifier": "every program and input", "why_tests_cant": "all programs", "anchors": ["errors.py:ErrorReporter.warn"]}
{"id": "C50", "title": "Argument lists survive quoting", "statement": "Splitting an argument line whose arguments are each quoted with a quote character they do not contain yields exactly these arguments; no argument is lost.", "quantifier": "every list of strings", "why_tests_cant": "all argument contents, including spaces, empty strings and quotes", "anchors": ["pip.py:pip"]}
{"id": "C51", "title": "List output formats are exact", "statement": "With no list format the output of a List is the concatenation of the renderings of its items; with -s/-n its items are separated by spaces/newlines; -p prints the repr.", "quantifier": "every List and format", "why_tests_cant": "nesting unbounded", "anchors": ["ptypes.py:List.__str__", "ptypes.py:List.joined"]}
{"id": "C52", "title": "Increment and decrement change a variable by exactly one", "statement": "++x and --x on a variable holding an integer change it by exactly one, after any program history.", "quantifier": "every history and integer", "why_tests_cant": "history dependence: constants shared by the interpreter can be mutated", "anchors": ["execution.py:ProgramState.INC", "execution.py:ProgramState.DEC", "execution.py:SCALAR_ONE"]}
{"id": "C53", "title": "An error leaves the REPL in the top-level scope", "statement": "After a fatal error inside a function called from the REPL, the next input line is evaluated in the top-level scope with its local variables intact.", "quantifier": "every failing call", "why_tests_cant": "error may be raised at any depth", "anchors": ["execution.py:ProgramState.functionCall", "pip.py:pip"]}
{"id": "C54", "title": "Counted and for loops run the expected number of times", "statement": "L n executes its body exactly max(0,n) times; F executes its body once per item of the iterable, in order, with the loop variable bound to the item.", "quantifier": "every body, count and iterable", "why_tests_cant": "counts unbounded, bodies arbitrary", "anchors": ["execution.py:ProgramState.LOOP", "execution.py:ProgramState.FOR"]}
{"id": "C55", "title": "Integer conversion truncates the numeric value", "statement": "Using a Scalar where an integer is needed (index, count, Range bound) uses its numeric value truncated toward zero.", "quantifier": "every numeric Scalar, including results of division", "why_tests_cant": "the set of float renderings is huge", "anchors": ["ptypes.py:Scalar.__int__", "ptypes.py:Scalar.toNumber"]}
{"id": "C56", "title": "Halving an integer is exact", "statement": "HV of an integer n returns floor(n/2) for every n, and HU returns ceiling(n/2).", "quantifier": "every integer", "why_tests_cant": "rounding errors show only above 2^53", "anchors": ["execution.py:ProgramState.HALVE", "execution.py:ProgramState.HALVEUP"]}
{"id": "C57", "title": "Push and pop are inverse", "statement": "Pushing a value on a list variable and popping it returns the value and restores the list; enqueueing at one end and dequeueing keeps first-in first-out order.", "quantifier": "every list and value", "why_tests_cant": "list length unbounded", "anchors": ["execution.py:ProgramState.PUSH", "execution.py:ProgramState.POP", "execution.py:ProgramState.PUSHBACK", "execution.py:ProgramState.DEQUEUE"]}
{"id": "C58", "title": "Nested Lists are ordered item by item", "statement": "For two Scalars, or two Lists whose items at common positions are again both Scalars or both Lists, one three-way answer accounts for all the comparison operators: the first position where the Lists differ decides, and a proper prefix comes first. The string operators LT, Q, GT, LE, GE, NE compare Scalars lexicographically, and Q is identity; the numeric operators <, =, >, <=, >=, != and CM compare Scalars as numbers.", "quantifier": "all nested Lists of Scalars, of any length and depth", "why_tests_cant": "lengths and nesting depth are unbounded and each of the thirteen operators has its own recursion", "anchors": ["execution.py:2463-2732", "execution.py:3697-3851"]}
{"id": "C59", "title": "V runs a text like code in its place", "statement": "For a Scalar whose text is a program, V executes the statements of that text in the current scope, with the current variables, and has the value of the last statement (nil if that is a command or there is none); for any other text V is a fatal error, after the operand was evaluated and before anything else happens.", "quantifier": "every operand expression, text and state", "why_tests_cant": "texts, programs and states are unbounded", "anchors": ["execution.py:ProgramState.EVAL", "execution.py:ProgramState.BLOCK", "parsing.py:isExpr"]}
{"id": "C60", "title": "Evaluation is deterministic and output is never taken back", "statement": "The result of a terminating run does not depend on how deep the interpreter is allowed to recurse; during any evaluation the text already printed stays a prefix of the output and the input not yet read is a suffix of the previous one.", "quantifier": "every program, function call and state", "why_tests_cant": "all programs, all depths", "anchors": ["execution.py:ProgramState.evaluate", "execution.py:ProgramState.functionCall", "execution.py:ProgramState.OUTPUT", "execution.py:ProgramState.PRINT"]}
{"id": "C61", "title": "Operators on values see only the values and change nothing", "statement": "Evaluating an operator that does not itself assign, print, call a function or return one of its operands gives, in every interpreter state, an object whose value is determined by the values of the operands alone (item-wise on Lists where the operator says so), raises an error exactly when the value-level operation does, and leaves variables, output and every existing object as they were.", "quantifier": "every operator of the table without side effects, every state, every choice of operand objects", "why_tests_cant": "states and aliasing between operands are unbounded", "anchors": ["execution.py:ProgramState.evaluate", "execution.py:ProgramState.getRval", "ptypes.py:List.copy"]}
{"id": "C62", "title": "Conditional and condition-controlled statements", "statement": "I executes exactly the branch chosen by its condition; W executes its body as long as the condition, evaluated anew before each round, is true, and T as long as it is false; each such execution is a run of the statement and there are no others.", "quantifier": "every condition, body and state", "why_tests_cant": "number of rounds unbounded, conditions and bodies arbitrary", "anchors": ["execution.py:ProgramState.IF", "execution.py:ProgramState.WHILE", "execution.py:ProgramState.TILL"]}
{"id": "C63", "title": "A call binds exactly the arguments", "statement": "Calling a function value with arguments runs its body in a new scope where f is the function itself, g is a list of the argument values, a to e are the first five arguments (unassigned when there are fewer) and the history variables are unassigned; global variables, input, output and the callers scopes are the same as before the call. The result is the value of the last expression, evaluated in the state the body left, and afterwards the new scope is gone and every other effect remains.", "quantifier": "all function bodies, all argument lists of any length and all states", "why_tests_cant": "argument lists and bodies are unbounded; a leak from the scope of the caller or of an earlier call shows only for particular combinations of names and nesting", "anchors": ["execution.py:400-418", "execution.py:420-432", "execution.py:434-440"]}
{"id": "C64", "title": "An occurrence of q reads exactly one line", "statement": "Evaluating an occurrence of the special variable q takes exactly one line from standard input and its value is that line; at the end of the input it is nil. The line is read once even by operators that inspect their operand for being a function before they use it (PU, PB), and nothing else changes.", "quantifier": "all states, all inputs, all list variables and contents", "why_tests_cant": "whether a second read happens depends on the operator, the state of the cached value and what is left of the input", "anchors": ["execution.py:144-153", "execution.py:272-285", "execution.py:478-486", "execution.py:4328-4366"]}
{"id": "C65", "title": "The REPL answers every expression with its repr and remembers it", "statement": "Entering an expression at the REPL prints exactly the repr of its value and a newline after whatever the expression itself printed; afterwards $_ is this value, $__ and $___ are the two values before it, and every other variable and the input are as the expression left them. Commands print nothing of their own. The statements of a line are answered one after the other, each in the state the previous one left.", "quantifier": "all statements, values and states of a session", "why_tests_cant": "the history depends on all earlier lines; values and their nesting are unbounded", "anchors": ["pip.py:381-386", "execution.py:434-440", "execution.py:3002-3009"]}
{"id": "C66", "title": "The REPL reads the shortest complete sequence of lines", "statement": "If the first lines of the input are incomplete code, for each number of lines less than k, and the first k lines together are complete and no REPL command, then the REPL consumes exactly these k lines, prints the prompt once and k-1 continuation prompts, executes the statements of the k lines as one text and goes on with the rest of the input.", "quantifier": "all sequences of lines and all continuations", "why_tests_cant": "the number of lines, the places where code is broken and the nesting of open brackets and literals are unbounded", "anchors": ["pip.py:335-352", "scanning.py:tokenize", "parsing.py:parse"]}
{"id": "C67", "title": "-r passes exactly the lines of standard input as arguments", "statement": "Running any syntactically correct program with -r ends in the same outcome, output and state as running it with the lines of standard input as its command-line arguments and an empty standard input; arguments given on the command line are ignored.", "quantifier": "all programs, options and inputs", "why_tests_cant": "programs and inputs are unbounded and a difference could show in any variable", "anchors": ["pip.py:266-279", "execution.py:53-70"]}
{"id": "C68", "title": "The parser accepts exactly the programs of a grammar", "statement": "A list of tokens is parsed as certain statements exactly when a declarative grammar derives these statements from it: expressions group by the precedence and associativity columns of the operator table (prefix operators, infix and ternary operators, comparison chains, modifiers $ \\$ * :), are as long as possible, and commands take the arguments their table row lists; interpolated strings become joined Lists. So no token is skipped or read twice, and every program has at most one reading.", "quantifier": "all lists of tokens and all source texts", "why_tests_cant": "programs nest without bound and grouping depends on every pair of operators on the path to the root", "anchors": ["parsing.py:parse", "parsing.py:parseStatement", "parsing.py:parseExpr", "parsing.py:parseOperator", "parsing.py:parseOperand", "parsing.py:parseInterpolated"]}
{"id": "C69", "title": "A program is called incomplete exactly if it can be completed", "statement": "The parser reports incomplete syntax for a list of tokens exactly if it does not accept the list but accepts it followed by some more tokens, and bad syntax exactly if no continuation is accepted. In terms of lines: if lines of text whose literals and comments are closed are incomplete, then one more line can make them acceptable; if they are bad, no more lines can.", "quantifier": "all lists of tokens and all continuations", "why_tests_cant": "quantifies over all continuations of all programs", "anchors": ["parsing.py:parse", "parsing.py:parseBlock", "parsing.py:parseExpr", "errors.py:IncompleteSyntaxError", "pip.py:335-352"]}
{"id": "C70", "title": "REPL sessions follow the lines exactly", "statement": "A session takes lines, with one prompt each, until they are complete code, cannot become complete code, or the input ends. Complete code is executed and answered, bad code is dropped with a message and the session goes on with the next line. A line that starts with a semicolon is one round; if its first word abbreviates (in letters of any case) quit, exit, help or warnings, or is x, the command is obeyed, and any other such line does nothing. A session ends with Bye! exactly when such a quit line is reached, and the lines after it are not read; otherwise it reads all of its input unless an exception other than FatalError and RecursionError leaves it.", "quantifier": "every sequence of input lines, every state and every set of options", "why_tests_cant": "sessions, code spread over lines, spellings of commands and states are unbounded", "anchors": ["pip.py:repl", "scanning.py:scan", "parsing.py:parse"]}
{"id": "C71", "title": "A Pattern made of a text acts like the text", "statement": "Let p be the Pattern that X makes of a text s, whatever characters s has. Then counting p in a text with N, asking with NI, finding the first place with @?, all places with @*, splitting with ^, removing with RM and replacing with R by anything but a function give the same as with s itself; ~= holds only for s itself; ~ gives s if the text contains s and nil otherwise; and @ gives as many copies of s as N counts.", "quantifier": "all texts s and all subject texts", "why_tests_cant": "all texts, including every combination of regex metacharacters", "anchors": ["execution.py:REGEX", "execution.py:IN", "execution.py:FIND", "execution.py:FINDALL", "execution.py:SPLIT", "execution.py:REMOVE", "execution.py:REPLACE", "execution.py:FULLMATCH", "execution.py:FIRSTMATCH", "execution.py:AT", "ptypes.py:Pattern"]}
{"id": "C72", "title": "All operators see the same matches of a Pattern", "statement": "For any Pattern and text there is one way to cut the text into gaps and matches such that @ gives the matches, N their number, @* their places, @? and ~ the first place and match (nil without matches), NI whether there are none, RM the text without the matches, R the text with every match replaced, and ^ the gaps with the texts of the groups in between; gaps and matches together are the text.", "quantifier": "every Pattern that can be matched, every text, every replacement text", "why_tests_cant": "regexes, texts and replacements are unbounded", "anchors": ["execution.py:AT", "execution.py:IN", "execution.py:FINDALL", "execution.py:FIND", "execution.py:FIRSTMATCH", "execution.py:NOTIN", "execution.py:REMOVE", "execution.py:REPLACE", "execution.py:SPLIT", "ptypes.py:Pattern.asRegex"]}
{"id": "C73", "title": "Operators on Patterns are operations on languages", "statement": "Let a Pattern be made of texts and of the one-character Patterns in variables with X, + (followed by), comma (or), K (any number of), unary + (at least one) and * (so many), and C (capture), in any order and nesting. It matches exactly the texts that this describes: ~= holds exactly for these texts, @? and ~ give the first place where one of them is a part of the text (nil if there is none), and @ gives only such texts.", "quantifier": "all Patterns made in this way and all texts", "why_tests_cant": "unbounded nesting of Pattern operators and unbounded texts", "anchors": ["execution.py:REGEX", "execution.py:ADD", "execution.py:RANGE", "execution.py:KLEENESTAR", "execution.py:POS", "execution.py:MUL", "ptypes.py:Pattern.group", "ptypes.py:Pattern"]}
{"id": "C74", "title": "In a replacement Pattern the ampersand is the match", "statement": "Replacing the matches of a Pattern by a replacement Pattern without backslashes puts, for each match, the characters of the replacement with every & replaced by the match, and keeps the gaps between the matches as they are.", "quantifier": "every Pattern, text and replacement Pattern without backslashes", "why_tests_cant": "regexes, texts and replacements are unbounded", "anchors": ["execution.py:REPLACE", "ptypes.py:Pattern.asReplacement", "ptypes.py:Pattern.asRegex"]}
{"id": "C75", "title": "Stripping with a Pattern removes matches at the ends until none is left there", "statement": "For a Pattern built as in C73 and a text, |> removes a sequence of nonempty matches from the beginning of the text, and no nonempty match is left at the beginning; <| does the same at the end, and || at both ends.", "quantifier": "all Patterns made with X, +, K, unary +, * and C of texts and character Patterns, all texts (without newlines for <| and ||)", "why_tests_cant": "unbounded nesting of Pattern operators, unbounded texts and numbers of removed matches", "anchors": ["execution.py:LSTRIP", "execution.py:RSTRIP", "execution.py:STRIP", "ptypes.py:Pattern"]}
{"id": "C76", "title": "The match variables describe the match", "statement": "After ~, @?, ~=, @*, N or @ has found a match of a Pattern in a text, the text is before + m + after such that $` is before, $0 is m, $' is after, $( and $) are the positions where m begins and ends, $$, $[ and $] list the texts, starts and ends of the groups (nil and -1 for a group without a match), and $1 to $9 are the items of $$ (nil beyond its end). m is what ~ gives and begins where @? says (for @*, N and @: the last match), and the groups are those that ^ puts between the parts. Nothing else changes; if there is no match, nothing changes at all.", "quantifier": "all states, all operand expressions giving a text and a Pattern, all regexes, texts and numbers of groups up to 18", "why_tests_cant": "unbounded regexes, texts, states and operand expressions", "anchors": ["execution.py:assignRegexVars", "execution.py:FIRSTMATCH", "execution.py:FIND", "execution.py:FULLMATCH", "execution.py:FINDALL", "execution.py:IN", "execution.py:AT"]}
{"id": "C77", "title": "Mapping operators call the function once per item, in order, and list the results", "statement": "M, MZ, ME and MP call the function once for each item (pair of items of two iterables as far as both go; position and item; item and next item), from the first to the last, each call beginning in the state the one before left, and give a new List of the objects the calls returned; function and iterable can be swapped. MJ, MF and MS join, flatten and add up these results. If the function is an expression of its parameters, the result is the List of the values of the expression; the same for MU (the items of each item are the arguments), MM (one level deeper) and MC (row and column numbers).", "quantifier": "all states, all operand expressions giving a function and a Scalar, List or finite Range, all functions that return normally (with any effects for M, MZ, ME, MP, MJ, MF), all lengths", "why_tests_cant": "unbounded lists, arbitrary functions with effects on the state, arbitrary states", "anchors": ["execution.py:MAP", "execution.py:MAPZIP", "execution.py:MAPENUMERATE", "execution.py:MAPPAIRS", "execution.py:MAPJOIN", "execution.py:MAPFLATTEN", "execution.py:MAPSUM", "execution.py:MAPUNPACK", "execution.py:MAPMAP", "execution.py:MAPCOORDS", "execution.py:functionCall"]}
{"id": "C78", "title": "Filters keep exactly the items for which the function says so", "statement": "FI (FN) calls the function for each item in order and gives a new List of the visited objects for which the result counts as true (false) right after the call; FE also passes the position, FX keeps the positions instead of the items, FJ joins the kept items, FU passes the items of each item as arguments. If the function is an expression of its parameters, the result is the sublist of the items for which the expression is true.", "quantifier": "all states, all operand expressions giving a function and a Scalar, List or finite Range, all functions that return normally (with any effects for FI, FN, FE, FX, FJ), all lengths", "why_tests_cant": "unbounded lists, arbitrary functions with effects on the state, arbitrary states", "anchors": ["execution.py:FILTER", "execution.py:FILTERNOT", "execution.py:FILTERENUMERATE", "execution.py:FILTERINDEXES", "execution.py:FILTERJOIN", "execution.py:FILTERUNPACK"]}
{"id": "C79", "title": "SK and DK sort stably by the keys the function returns", "statement": "SK (DK) calls the function once for each item in order; the result is a List of the items arranged by ascending (descending) numeric value of the keys, items with equal keys in their original order; if two keys cannot be ordered (a number and a list), the result is nil. Scalar keys can always be ordered, by <.", "quantifier": "all states, all operand expressions giving a function and a Scalar, List or finite Range, all functions that return Scalars, Lists or finite Ranges, all lengths", "why_tests_cant": "unbounded lists, arbitrary key functions with effects, arbitrary states", "anchors": ["execution.py:SORTKEYED", "execution.py:DESCENDINGKEYED", "ptypes.py:toNumber"]}
{"id": "C80", "title": "Powers and one-step integer operators are exact", "statement": "For integer numerals a and b >= 0, a**b and aEb are the product of b copies of a, **b and Eb the product of b twos, aEEb is a times b tens, EEb is b tens, however long the numerals are. 0**b for b < 0 is nil with a warning. SQ, DB, AB, AD and SG give the square, the double, the absolute value, the absolute difference and the sign.", "quantifier": "all integer numerals (any length, leading zeros, sign)", "why_tests_cant": "unbounded integers and exponents", "anchors": ["execution.py:POW", "execution.py:UNARYPOW", "execution.py:EE", "execution.py:SQUARE", "execution.py:DOUBLE", "execution.py:ABS", "execution.py:ABSDIFF", "execution.py:SIGN"]}
{"id": "C81", "title": "Rounding operators give the integer or multiple they are named for", "statement": "For every Scalar, |<, >|, RZ and RN give the number it stands for rounded down, up, towards zero and to the nearest integer (halves to the even one). With a second operand they give the multiple of it that is the nearest in that direction; a second operand 0 changes nothing.", "quantifier": "all Scalars (one operand); all integers (two operands)", "why_tests_cant": "all texts of numbers, including those read as floats of any size", "anchors": ["execution.py:FLOOR", "execution.py:CEIL", "execution.py:ROUNDZERO", "execution.py:ROUNDNEAREST", "ptypes.py:toNumber"]}
{"id": "C82", "title": "Case operators change nothing but the case of letters", "statement": "LC, UC and SC make each letter small, capital or the other case and leave every other character alone. IC makes the first character a capital and all others small. TC makes small every letter after a letter and capital every other one. SC twice gives the text back. Ranges and nil are returned unchanged.", "quantifier": "all texts of ASCII characters; all Ranges", "why_tests_cant": "all texts of all lengths", "anchors": ["execution.py:LOWERCASE", "execution.py:UPPERCASE", "execution.py:SWAPCASE", "execution.py:TITLECASE", "execution.py:INITCAPS"]}
{"id": "C83", "title": "Text-editing operators produce the text they promise", "statement": "WR puts a text on both sides; DC removes exactly the characters that occur in the second operand; TM n removes n characters (none if n is negative) from both ends, TM a,b removes a from the start and b from the end; JW puts the separator before, between and after the items; TR replaces each character by the one the table has for it (the last entry counts, missing ones stay); ZJ gives the columns of the lines, with spaces where a line is too short.", "quantifier": "all texts, all Lists of texts, all integer numerals", "why_tests_cant": "all texts and tables of all lengths", "anchors": ["execution.py:WRAP", "execution.py:DELETECHARS", "execution.py:TRIM", "execution.py:JOINWRAP", "execution.py:TRANSLITERATE", "execution.py:ZIPJOIN"]}
{"id": "C84", "title": "RA replaces the items at the given indices and nothing else", "statement": "x RA i v gives x with the item at index i (going around at both ends) replaced by v, in a Scalar by the text of v. For a List of indices the replacements are made one after the other, with v or, if v is a List, with its items, starting over when they run out. For a Range of indices the slice is replaced by the items of v (the text of v in a Scalar). This holds for every iterable x.", "quantifier": "all Scalars and Lists, all integer numerals as indices, all values", "why_tests_cant": "all iterables of all lengths, all indices", "anchors": ["execution.py:REPLACEAT", "ptypes.py:Scalar.__setitem__", "ptypes.py:List.__setitem__"]}
{"id": "C85", "title": "Grids, Lists made from values, inclusive Ranges and length comparison", "statement": "r ZG c, r OG c and r CG c are Lists of r rows of c zeros, ones or coordinates, with one operand square ones; EY n has ones exactly on the diagonal. QR and QP mirror every row and the List of rows, QP without repeating the middle. AE and PE put a value at the end or start of the items of a List or Range (any other value counts as one item); AL joins the items of both. a\\,b contains the integers from a to b, both included, and \\,b those from 1 to b. #<, #> and #= compare the lengths, an infinite Range being longer than everything finite and as long as another infinite Range.", "quantifier": "all integer numerals, all Lists, all values", "why_tests_cant": "all sizes and values", "anchors": ["execution.py:ZEROGRID", "execution.py:ONEGRID", "execution.py:COORDINATEGRID", "execution.py:IDENTITYMATRIX", "execution.py:QUADREFLECT", "execution.py:QUADPALINDROMIZE", "execution.py:APPENDELEM", "execution.py:PREPENDELEM", "execution.py:APPENDLIST", "execution.py:INCLRANGE", "execution.py:INCLRANGETO", "execution.py:LENLESS", "execution.py:LENGREATER", "execution.py:LENEQUAL"]}
{"id": "C86", "title": "Random numbers lie where they should, every result is possible, and seeding makes them repeatable", "statement": "a RR b gives an integer from a up to but excluding b, RR b one from 0 up to but excluding b (item by item for a List of bounds); RC gives an item of its operand (of a List the object itself); SH gives the items of its operand in some order, as a new List or, for a Scalar, as a text, and leaves the operand alone; every occurrence of r is a multiple of 2^-53 in [0, 1). For some state of the generator each number, item and order is the result. If there is nothing to choose from, RR and RC end the program with ValueError. Nothing but the generator is changed. After r:x the numbers depend on the text of x alone, not on what was drawn before.", "quantifier": "all generators (any function from the requests made so far to an answer), all states, all operand expressions", "why_tests_cant": "a test sees one run of one generator; this is about all generators, all bounds and all orders", "anchors": ["execution.py:RANDRANGE", "execution.py:RANDRANGETO", "execution.py:RANDCHOICE", "execution.py:SHUFFLE", "execution.py:getr", "execution.py:setr"]}
{"id": "C87", "title": "PK takes one item out of a sequence and keeps all others", "statement": "x PK i returns the item of x at index i (counted around, also from the end) and leaves x with exactly the other items in their order: a List or a Scalar stays one, a Range without its first integer is a Range, otherwise a List. Every index is one of an item if there are any; from an empty sequence nothing is taken and nil is returned. Whatever indices are used repeatedly, the items taken together with those left are a permutation of the items there were. No other variable changes.", "quantifier": "all states, all names, all sequences, all index expressions, any number of uses", "why_tests_cant": "a test fixes the sequence and the indices; the permutation claim is about every sequence of uses", "anchors": ["execution.py:PICK"]}
{"id": "C88", "title": "RE calls the function that is running", "statement": "During a call of a function f that function is the running one, also after any expression or statement in its body that calls other functions. RE e calls it with the value of e as its only argument, with exactly the outcomes of that call.", "quantifier": "all functions, all states, all expressions and statements in between that do not run into a caught TypeError", "why_tests_cant": "which function RE means depends on the whole history of calls and returns", "anchors": ["execution.py:RECURSE", "execution.py:functionCall"]}
{"id": "C89", "title": "MR, LR and R with a function go through the matches", "statement": "For a Pattern and a text (in any order; a text in place of the Pattern stands for itself) the matches that @, @* and ^ report are gone through from left to right. For each of them the match variables are set to describe it and then MR calls the function with the match and its groups and collects the results in a new List, LR executes its body, R calls the function and puts the text of the result in the place of the match, keeping the text between the matches. Whatever the calls and the body do, including setting the match variables, does not change which matches are gone through.", "quantifier": "all supported Patterns, all texts, all functions and bodies, all states", "why_tests_cant": "calls and bodies can do anything, and the matches can be any", "anchors": ["execution.py:MAPREGEX", "execution.py:LOOPREGEX", "execution.py:REPLACE", "execution.py:assignRegexVars"]}
{"id": "C90", "title": "Y, YO and YP store a value in y", "statement": "Y e stores the value of e in y and changes no other variable; the value of the expression is the same value. YO and YP print the value first, as O and P do; nil is stored but not printed.", "quantifier": "all states, all expressions, all values", "why_tests_cant": "all values and states", "anchors": ["execution.py:YANK", "execution.py:YANKOUTPUT", "execution.py:YANKPRINT"]}
{"id": "C91", "title": "== decides sameness", "statement": "For two values of which at least one contains no Block, == gives 1 if they are the same value and 0 otherwise (the bounds of Ranges are compared as they are, a Scalar by its text). On all values, Blocks included, it always gives 1 or 0 and is reflexive, symmetric and transitive.", "quantifier": "all values of any depth", "why_tests_cant": "equality of nested values is about all depths, transitivity about all triples", "anchors": ["execution.py:OBJEQUAL", "ptypes.py:__eq__"]}
{"id": "C92", "title": "Operators on functions work pointwise", "statement": "An operator that builds functions, applied to operands of which at least one is a function, calls nothing: it gives a new function whose statements are those of the operands in order and whose result is the operation on what the functions return and on the other operands as they were. For functions without statements a call of the new function returns the operation applied to the results that the functions have for the same arguments: (f+g)(x) = f(x)+g(x), (f+1)(x) = f(x)+1, however often such functions are combined.", "quantifier": "all operators with the IN_LAMBDA flag, all states, all operands, all arguments of later calls", "why_tests_cant": "functions are combined from functions without end, and a test fixes the arguments", "anchors": ["execution.py:evaluate", "execution.py:functionCall"]}
{"id": "C93", "title": "x o: e means x : (x o e)", "statement": "Compute-and-assign with any operator, unary, binary or ternary, fold, scan or mapped, has exactly the results and effects of assigning the operation on the variable and the other operands to the variable. If the operator is one of those that depend on values only, the variable then has the value of the operation and no other variable changes.", "quantifier": "all operators, all variables but q and r, all operand expressions, all states", "why_tests_cant": "all operators and all states, with any side effects of the operands", "anchors": ["execution.py:evaluate", "execution.py:ASSIGN"]}
{"id": "C94", "title": "A mapped operator gives the List of the results for the items", "statement": "For a unary operator o that depends on values only, o* e is the List of the results of o for the items of the value of e, in order, and nothing else changes; the items are never expanded further than o itself does.", "quantifier": "all unary value operators, all sequences, all states", "why_tests_cant": "sequences of every length and items of every kind", "anchors": ["execution.py:MAPMETA"]}
{"id": "C95", "title": "Functions without side effects compute what their equations say", "statement": "A semantics of functions whose body is one expression is given on values alone, without state, scopes or objects: arguments, the list of arguments, the function itself, global variables, literals, function literals, operators that depend on values, Lists, comparisons, &, | and ?, RE, calls of functions held by variables or returned by expressions, and M. Whenever it gives a value for a call, the interpreter's call returns that value, wherever the call is made and however deeply it is nested, and has no other effect; the value is unique. Consequences proved from it: {a<2?1a*RE(a-1)} computes n! for every n, and {b?(f b a%b)a} computes the greatest common divisor of all nonnegative integers.", "quantifier": "all functions with such a body, all argument values, all states; all n; all nonnegative integers", "why_tests_cant": "recursion has no bound on its depth, and a test fixes the arguments", "anchors": ["execution.py:functionCall", "execution.py:RECURSE", "execution.py:SEND", "execution.py:IFTE", "execution.py:MAP"]}
{"id": "C96", "title": "Expressions without side effects have the value their parts determine, wherever they stand", "statement": "The semantics of C95, extended by items (e@i, (e i), @e), slices (e@<i, e@>i, eHi, eSi) and the rest of a sequence (@>e), describes expressions at any place of a program, with any values of the variables a to g: whenever it gives a value, evaluating the expression gives that value and changes nothing but adding objects and warnings, and the value is unique. Consequences proved from it: {#a?@a+RE@>a0} sums every List of integers and {#a?(RE@>a)AE@a[]} reverses every List without functions.", "quantifier": "all such expressions, all states, all values of the variables; all Lists", "why_tests_cant": "the lists and the depth of the recursion are unbounded, and an expression can stand in any state", "anchors": ["execution.py:AT", "execution.py:RIGHTOF", "execution.py:getRval", "execution.py:SEND", "execution.py:RECURSE"]}
{"id": "C97", "title": "Items and slices depend only on the value of the operand", "statement": "e@i and (e i) with a Scalar or a Range as index give what the operator gives on the values of e and i, whether e is a variable (which is read only afterwards), an item or slice of one, a list of variables or computed. The slices e@<i, e@>i, eHi and eSi do too, but not if e is a list of variables: [x;y]@>1 is the whole list (refuted for those); and a slice of an empty sequence with a Range is nil, but the empty sequence if a variable holds it (refuted).", "quantifier": "all expressions without side effects, all indices, all states", "why_tests_cant": "a test fixes the way the operand is written and what is nested in what", "anchors": ["execution.py:AT", "execution.py:LEFTOF", "execution.py:RIGHTOF", "execution.py:PREFIX", "execution.py:SUFFIX", "execution.py:getRval", "ptypes.py:__getitem__"]}
{"id": "C98", "title": "Programs with assignments, output, conditions, loops and calls do what their statements say", "statement": "A semantics of statements on values alone (no objects, scopes or lvalues) covers expressions without side effects (C95, C96), assignments and compute-and-assign to variables, the swapping of variables, U and D on variables, O and P, the commands I, L, F, W and T, the operators &, | and ? with operands that have effects, RE, Y, operators on values, chains of comparisons, folds and scans over operands that have effects, the mapping M and the filters FI and FN, function literals of any body, and calls and mappings of functions that have such statements. Whenever it describes a call of a function, the call, from whatever state, writes exactly that output, gives the variables those values, leaves the variables of the callers alone and returns that value; and it describes at most one output and result. A program whose function it describes ends without an error, reads no input, and prints that output and then the result. Consequences proved from it: for all integers, Wb{x:a%b a:b b:x}a prints the greatest common divisor, Fy,a{i+:y}i prints n(n-1)/2 and x:{Pi i+:a}La{(x b)}i prints the multiples of b up to the a-th.", "quantifier": "all such programs, all arguments, all output formats, all states and depths of calls", "why_tests_cant": "programs, arguments and numbers of rounds of a loop are unbounded", "anchors": ["execution.py:executeProgram", "execution.py:executeStatement", "execution.py:functionCall", "execution.py:ASSIGN", "execution.py:evaluate", "execution.py:IF", "execution.py:LOOP", "execution.py:FOR", "execution.py:WHILE", "execution.py:TILL", "execution.py:OUTPUT", "execution.py:PRINT", "execution.py:MAP", "execution.py:RECURSE"]}
{"id": "C99", "title": "One-expression programs that fold a range or the digits of a number compute the sum, the digit sum, the factorial and the triangular numbers", "statement": "For every integer n >= 0, the program $+,a with the argument n prints n(n-1)/2 and a newline. For every string of digits, $+a prints the sum of the digits (0 for no digits). For every n >= 0, $*\\,a prints n factorial. For every n > 0, \\$+,a prints the list of the first n triangular numbers 0, 1, 3, ... in the output format chosen. In all cases the program ends without an error and reads no input. Folding nothing gives the operator's default, so n = 0 needs no special case.", "quantifier": "all integers n, all strings of digits, all output formats, with and without warnings, all input", "why_tests_cant": "the arguments and hence the lengths of the lists folded are unbounded", "anchors": ["execution.py:evaluate", "parsing.py:parseOperand", "execution.py:ADD", "execution.py:MUL", "execution.py:RANGETO", "execution.py:INCLRANGETO"]}
{"id": "C100", "title": "Programs that filter a range list the divisors of a number and tell primes", "statement": "For every integer n, the program {y%a}FN\\,Ya with the argument n prints the list of the positive divisors of n up to n, each once and in increasing order, in the output format chosen; $+({y%a}FN\\,Ya) prints their sum; #({y%a}FN\\,Ya) prints their number, which for n > 0 is 2 exactly when n is prime. In all cases the program ends without an error and reads no input. The variable y is assigned by an operand of the filter, and the function called for each item sees its value.", "quantifier": "all integers n, all output formats, with and without warnings, all input", "why_tests_cant": "the argument, and with it the number of calls, is unbounded", "anchors": ["execution.py:FILTERNOT", "execution.py:functionCall", "execution.py:YANK", "execution.py:evaluate", "execution.py:MOD", "execution.py:INCLRANGETO", "execution.py:LEN"]}
{"id": "C101", "title": "Programs that swap, multiply and count down variables in loops", "statement": "For every integer n, La{o+:i i::o}i with the argument n prints the n-th of Fibonacci's numbers (the 0th for n < 0); for all integers x and n >= 0, Lb{o*:a}o with the arguments x and n prints x to the power n; for n >= 0, Wa{PaDa} prints the numbers from n down to 1, one on each line, and nothing else. In all cases the program ends without an error and reads no input.", "quantifier": "all integers x and n, all output formats, with and without warnings, all input", "why_tests_cant": "the arguments, and with them the number of rounds, are unbounded", "anchors": ["execution.py:SWAP", "execution.py:DEC", "execution.py:LOOP", "execution.py:WHILE", "execution.py:evaluate", "execution.py:assign", "execution.py:executeProgram"]}
{"id": "C102", "title": "Loops whose condition never changes its mind run forever, without an error", "statement": "A description on values alone says when statements never end: a W or T loop in whose every round the condition counts as true (for T: false) and the body is executed to its end, or that comes to a round whose body never ends; an I whose chosen branch never ends; and a sequence of statements with such a statement after statements that end. Whenever it describes the body of a function, no call of that function ends, neither regularly nor with an error, and no program with that body does. Consequences: for every integer n, Wa{Ua} with the argument n ends (and then prints nothing) exactly if n <= 0, and for every text, Ia{W1{Oi}} with the argument ends (and prints nothing) exactly if the text counts as false.", "quantifier": "all such functions and programs, all arguments, all states, all output formats, however long one waits", "why_tests_cant": "no test can wait forever: a test only sees that a program has not ended yet", "anchors": ["execution.py:WHILE", "execution.py:TILL", "execution.py:IF", "execution.py:executeStatement", "execution.py:functionCall", "execution.py:executeProgram"]}
{"id": "C103", "title": "Loops ended by a comparison: counting in the condition, and integer square roots", "statement": "For every integer n, W Ui<a{Pi} with the argument n prints the numbers from 1 to n-1, one on each line, and nothing if n <= 1: the operand of the comparison that changes i is evaluated once in each round, before the other operand and before the body. For every n >= 0, Ta<i*i{Ui}i-1 prints the greatest integer whose square is at most n. In all cases the program ends without an error and reads no input.", "quantifier": "all integers n, all output formats, with and without warnings, all input", "why_tests_cant": "the argument, and with it the number of rounds, is unbounded", "anchors": ["execution.py:CHAIN", "execution.py:INC", "execution.py:WHILE", "execution.py:TILL", "execution.py:evaluate", "execution.py:executeProgram"]}
{"id": "C104", "title": "A program does the same wherever its text comes from", "statement": "A program read from standard input with -i is the lines of standard input with a newline between any two of them: it behaves exactly as that text given with -e and an empty standard input, so q finds nothing to read and -r passes no arguments. Every text can be given in this way. A file named by -f, or by the first argument when no source is given (the program then gets the other arguments), or a text passed to pip(), behaves as its text given with -e.", "quantifier": "all texts, lines of input, options and arguments", "why_tests_cant": "the texts and inputs are unbounded", "anchors": ["pip.py:pip"]}
{"id": "C105", "title": "With -x, the printed form of a value is that value as an argument", "statement": "With -x, an argument that is the repr of a value made of Lists, Ranges, nil, integers, unsigned decimals and texts without double quotes (and some other texts, see C39) is evaluated to this value, which prints nothing and changes no variable. A program whose run with these values as arguments is described by the semantics of programs (C98) writes exactly that output; in particular the program g prints the List of all these values in the chosen list format. With integers as arguments, such a program writes the same with -x and without. With -r and -x, the lines of standard input are read and evaluated in the same way.", "quantifier": "all lists of such values, options and programs", "why_tests_cant": "values are nested without bound and texts are arbitrary", "anchors": ["pip.py:280-309", "pip.py:pip"]}
