(** * Operator functions (names of the methods of [ProgramState] that the
    operator table of operators.py:113-441 refers to, plus the pseudo-operators
    of operators.py:452-456, 493) *)

Inductive opfun : Set :=
| F_ABS | F_ABSOLUTEDIFF | F_ADD | F_AND | F_APPENDELEM | F_APPENDLIST
| F_ARCTAN | F_ASC | F_ASSIGN | F_AT | F_BINARYLOG | F_BITLENGTH | F_BITWISEAND
| F_BITWISENOT | F_BITWISEOR | F_BITWISEXOR | F_BLOCK | F_CARTESIANPRODUCT
| F_CAT | F_CEIL | F_CHAIN | F_CHOP | F_CHR | F_COMBINATIONS | F_COORDINATEGRID
| F_COSEC | F_COSINE | F_COTAN | F_DEC | F_DECIMALLOG | F_DEGREES | F_DELETECHARS
| F_DEQUEUE | F_DESCENDINGKEYED | F_DESCENDINGNUM | F_DESCENDINGSTRING
| F_DIV | F_DOT | F_DOUBLE | F_ENUMERATE | F_EVAL | F_EXPONENTIAL | F_FILTER
| F_FILTERENUMERATE | F_FILTERINDEXES | F_FILTERJOIN | F_FILTERNOT
| F_FILTERUNPACK | F_FIND | F_FINDALL | F_FIRSTMATCH | F_FLATTEN | F_FLATTENALL
| F_FLOOR | F_FROMBASE | F_FROMDIGITS | F_FULLMATCH | F_GROUP | F_HALVE
| F_HALVEUP | F_IDENTITYMATRIX | F_IFTE | F_IN | F_INC | F_INCLRANGE
| F_INCLRANGETO | F_INITIALCAPS | F_INTDIV | F_INVERT | F_JOIN | F_JOINWRAP
| F_KLEENESTAR | F_LEFTOF | F_LEN | F_LENEQUAL | F_LENGREATER | F_LENLESS
| F_LIST | F_LOWERCASE | F_LSTRIP | F_MAP | F_MAPCOORDS | F_MAPENUMERATE
| F_MAPFLATTEN | F_MAPJOIN | F_MAPMAP | F_MAPPAIRS | F_MAPREGEX | F_MAPSUM
| F_MAPUNPACK | F_MAPZIP | F_MAX | F_MIN | F_MOD | F_MUL | F_NATURALLOG
| F_NEG | F_NOT | F_NOTIN | F_NUMCMP | F_NUMEQUAL | F_NUMGREATER | F_NUMGREATEREQ
| F_NUMLESS | F_NUMLESSEQ | F_NUMNOTEQUAL | F_OBJEQUAL | F_ONEGRID
| F_OR | F_OUTPUT | F_PALINDROMIZE | F_PARENTHESIZE | F_PERMUTATIONS
| F_PICK | F_POP | F_POS | F_POW | F_POWEROFTEN | F_PREFIX | F_PREPENDELEM
| F_PRINT | F_PUSH | F_PUSHBACK | F_QUADPALINDROMIZE | F_QUADREFLECT
| F_RADIANS | F_RANDCHOICE | F_RANDRANGE | F_RANDRANGETO | F_RANGE
| F_RANGETO | F_RECURSE | F_REFLECT | F_REGEX | F_REMOVE | F_REPEATLIST
| F_REPLACE | F_REPLACEAT | F_REPR | F_REVERSE | F_RIGHTOF | F_ROOT
| F_ROUNDNEAREST | F_ROUNDZERO | F_RSTRIP | F_RVALAND | F_RVALIFTE
| F_RVALOR | F_SECANT | F_SEND | F_SHUFFLE | F_SIGN | F_SINE | F_SORTKEYED
| F_SORTNUM | F_SORTSTRING | F_SPLIT | F_SPLITAT | F_SQRT | F_SQUARE
| F_STR | F_STREQUAL | F_STRGREATER | F_STRGREATEREQ | F_STRIP | F_STRLESS
| F_STRLESSEQ | F_STRMUL | F_STRNOTEQUAL | F_SUB | F_SUFFIX | F_SWAP
| F_SWAPCASE | F_TANGENT | F_TITLECASE | F_TOBASE | F_TODIGITS | F_TRANSLITERATE
| F_TRIM | F_UNIQUE | F_UNWEAVE | F_UPPERCASE | F_WEAVE | F_WRAP | F_YANK
| F_YANKOUTPUT | F_YANKPRINT | F_ZEROGRID | F_ZIP | F_ZIPDEFAULT | F_ZIPJOIN.
