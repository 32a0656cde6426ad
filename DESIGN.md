# Formal model of the Pip interpreter in Rocq/Coq 8.16.1

Source: `dloscutoff/pip` as found in `/repo` (Python). All line numbers below
and in the Coq comments refer to that tree. Nothing from `/repo` was executed.

## Trusted base

* Coq's kernel (`vm_compute` is used for concrete witnesses).
* What `Print Assumptions` lists for each theorem. Every property theorem is
  followed by a `Print Assumptions`; the goal is "Closed under the global
  context" for all of them. No axiom, parameter, admitted proof, functor,
  module type or plugin is used.
* The reading of Python semantics listed under "Python semantics assumed".
* The correspondence between the Coq definitions and `/repo`: every model
  definition cites file and lines and states its simplifications.

## Layout of `rocq/theories`

| file | content | kind |
|---|---|---|
| `PyStr.v` | Python `str` as a list of code points, helpers | model |
| `PyRe.v` | small backtracking regex engine and the interpreter's own fixed regexes, transcribed | model |
| `PyNum.v` | Python `int` and binary64 `float`, parsing, printing, comparison, arithmetic | model |
| `Tokens.v`, `OpTable.v` | token classes, operator and command tables | model |
| `Scan.v`, `Parse.v`, `Unparse.v` | `scanning.py`, `parsing.py` | model |
| `PTypes.v` | `ptypes.py`: Scalar, Pattern, List, Range, Block, Nil as pure values | model |
| `UserRe.v` | Python's `re` for the Patterns of programs: parser, backtracking matcher, search, sub, split, replacement templates | model |
| `Ops*.v` | the operators of `execution.py` that are pure functions of their arguments | model |
| `Apply.v` | operator dispatch: argument types, item-wise expansion, lambda building | model |
| `Heap.v` | mutable objects as heap cells, interpreter state, error and state monad | model |
| `Exec.v` | `ProgramState`: variables, scopes, evaluation, lambda building, commands, meta-operators, calls, `executeProgram` | model |
| `Main.v` | `pip.py`: argument splitting, output format choice, running a program, the REPL loop | model |
| `Source.v` | `pip.py`: where the text of the program comes from (-e, -f, -i, the first argument) | model |
| `Spec.v`, `SpecList.v`, `SpecRun.v` | vocabulary for values: numerals, windows, stable sorting, leaves, running one operator | specification |
| `SpecScan.v`, `SpecSyntax.v` | lexical structure, precedence, token lists of expressions | specification |
| `SpecHeap.v`, `SpecExec.v`, `SpecVars.v` | which value an object denotes; evaluation, variables, statements, loops, calls as relations | specification |
| `SpecMeta.v`, `SpecAlias.v`, `SpecMain.v`, `SpecRepr.v`, `SpecBlock.v` | folds and chains; tables of plain values; argument lines and REPL; readable values; printable code | specification |
| `*Facts.v`, `*Proof*.v`, `ReLang.v`, `RunOp.v`, `ParseEq.v`, `ExecRel.v`, `ExecInv.v`, `AliasStart.v` | lemmas | proofs |
| `PropSeq.v` (C01-C05, C28), `PropNum.v` (C06-C15, C55, C56), `PropList.v` (C16-C31), `PropSyntax.v` (C32-C38), `PropRepr.v` (C39, C59), `PropBlock.v` (C40), `PropGrammar.v` (C68, C69), `PropVars.v`, `PropCtl.v`, `PropExec.v`, `PropMut.v`, `PropMeta.v`, `PropAlias.v`, `PropOrder.v` (C41-C49, C52, C54, C57, C58, C60-C64), `PropMain.v` (C50, C51, C53, C65-C67), `PropRepl.v` (C70), `PropRegex.v` (C71-C75), `PropMatch.v` (C76), `PropMap.v` (C77-C79), `PropArith.v` (C80, C81), `PropText.v` (C82-C85), `PropRand.v` (C86), `PropEach.v` (C87-C91), `PropLam.v` (C92-C94), `PropFun.v` (C95), `PropFun2.v` (C96, C97), `PropImp.v` (C98 to C103), `PropSource.v` (C104), `PropXargs.v` (C105) | theorems, examples, `Print Assumptions` | statements |

The proofs of the evaluator rest on three layers. `ExecRel.v` shows once, by
parametricity over the interpreter record, that every function of `Exec.v`
preserves any relation closed under the monad operations; `ExecInv.v`
instantiates it (more fuel, input and output, scopes). `HeapProof.v` and
`EvalProof.v` relate heap objects to values. The remaining files derive the
properties from these.

## Modelling decisions

* **Strings** are lists of Unicode code points (`list N`). The Unicode tables
  needed by `\d` and `\s` (660 decimal digits, 29 whitespace characters) are
  included, so `toNumber`, `lstrip` and the scanner are not limited to ASCII.
  Case mapping is modelled for ASCII only.
* **Numbers**: Python `int` is `Z`. Python `float` is `SpecFloat.spec_float`
  with precision 53 and emax 1024 (pure Gallina, axiom-free): `+ - * /`,
  comparison with ints (exact), floor/ceil/trunc, decimal parsing (correctly
  rounded) and shortest `repr`. `pow` with a float or negative exponent and
  the `math.*` transcendental functions are **not** modelled; they evaluate to
  an explicit "unmodelled" error and no theorem claims anything about them.
* **Exceptions** are values: `TypeError`, `ValueError`, `IndexError`,
  `ZeroDivisionError`, ... are distinguished from Pip's fatal errors and from
  warnings; warnings are recorded.
* **Values**: pure operators work on an inductive type of values. The
  interpreter works on a **heap** because Scalars and Lists are mutable
  Python objects; which operations copy and which share is part of the model.
* **Termination**: functions whose termination is a claim (scanner, parser,
  slicing loops, find-all) are written with fuel and the theorem shows that
  the fuel given is never exhausted. The evaluator takes fuel because Pip
  programs may loop; theorems about it speak of terminating runs and a
  monotonicity theorem shows that the result does not depend on the fuel.
* **The evaluator** is a record of functions (`interp`); `step` defines each
  of them from the record, `run n` iterates `step` n times and answers `Fuel`
  when that is not enough. Error, output, warnings and input are part of the
  state, which an error keeps.

### Simplifications in the evaluator

* Iterating over a List takes a snapshot of its items, where Python asks the
  List for each item when its turn comes.  The two differ only if the List
  object itself is assigned to (`l@i:v` changes it in place) while it is being
  gone through.  The loops and the mapping operators get their List from
  `getRval`, which returns a deep copy of whatever a variable holds, and every
  operator that stores its operand returns the Lval rather than the object, so
  that no variable refers to the List being gone through.  This is an argument
  from reading the code, not a theorem.
* Iterating over an infinite Range in a statement or comprehension is `Fuel`.
* The text of a warning is reduced to the operator that issued it.
* The result of an operator without side effects is a fresh object unless the
  Python function returns one of its operands or its items.
* Python's recursion limit and memory are ignored.
* The operators that search with a Pattern assign the match variables (`$0`,
  `$1`, ..., ``$` ``) when their value is known; Python assigns them at each
  match, which is the same unless the operator raises an exception half-way.
* Cases in which a List would hold an Lval (`Y*[1 2 3]`), comparison of two
  Blocks from lambda building, and the NameErrors of the unreachable-looking
  branches at execution.py:379, 2257 and 4311 are `Unmodelled` or the Python
  error itself.

### Not modelled

* In Patterns: look-around, named groups, inline flags, comments, possessive
  repetition, conditional groups, octal, hexadecimal and Unicode escapes, and
  IGNORECASE together with characters outside ASCII; Python's limit of 2^32-1
  for repetition counts; Patterns with a syntax
  error (Python raises `re.error`). A Block inside a List of replacements.
* Trigonometry and logarithms, powers with a float or negative exponent.
* How likely the results of `RC`, `SH`, `RR` and `r` are.
* Case mapping outside ASCII.
* argparse (an options record stands for its result), the file system (a
  function from names to texts stands for it), `-v`, `-V`, `-h` messages, the
  prompts of an interactive start, text on standard error, keyboard
  interrupts, terminal handling of the REPL. An argument of `-x` that
  evaluates to an Lval.

These evaluate to an explicit `Unmodelled` error, and no theorem claims
anything about them.

## Python semantics assumed

* `%`, `//` on ints are floor based; comparison of int with float is exact.
* `str.split/join/find/index/count/replace/strip` as documented.
* `sorted` is stable and raises `TypeError` iff the keys contain an
  incomparable pair.
* `list(x)` asks `x.__len__()` first, so `list(infinite Range)` raises
  `ValueError`, whereas a comprehension over it does not terminate.
* `str(int)`/`int(str)` have no digit limit (the limit of 4300 digits of
  CPython >= 3.10.7 can be lifted by an environment variable and is ignored).
* Dictionaries keep the last binding of a key.
* The generator of `random` is a function that answers the last of a list of
  requests for a number below a bound (`rng_pick`); seeding with a text replaces
  it by one that depends on the text only (`rng_seed`). `randrange(a, b)` is one
  request for b - a, `random()` one for 2^53, `shuffle` one for each i from the
  length down to 2 followed by a swap of the items i-1 and the answer. The
  theorems hold for all such functions; the state of the generator at the start
  is part of the input of a program (`world`).
* `re` as in CPython 3.11: alternatives in order, greedy and lazy repetition, a
  round of a repetition that consumes nothing ends it, groups keep their last
  text and are restored when a choice is undone, `finditer` may report an empty
  match directly after a non-empty one, `\B` never matches in the empty text.
  `UserRe.v` was compared with the sandbox's `re` on about 20000 random regexes
  and texts without a difference (a test, not part of the proofs).

## Plan per property

| id | modelled part | proof method |
|---|---|---|
| C01-C02 | `Scalar/List.__getitem__`, slicing loops with fuel | loop invariants; result equals a window of the periodic extension |
| C03-C04 | `Range` methods | case analysis + refinement to the List model |
| C05 | `ADD`/`SUB` on Ranges, `Range.__init__` | shift lemma for finite; witness for infinite (expected refuted) |
| C06-C07 | `toNumber`, `Scalar(value)`, arithmetic | digit induction, `Z` division laws |
| C08-C11 | comparison operators | order on dyadic rationals; structural induction on values; lexicographic order |
| C12 | `zeroRgx`, `__bool__` | regex characterisation |
| C13-C15 | base conversion, bitwise ops | digit induction, `Z.testbit` |
| C16-C18 | sorting, extremes, unique | stable insertion sort, permutation |
| C19-C30 | sequence operators | list induction; counterexamples for C21, C30 |
| C31 | `evaluate` item-wise recursion | induction on values |
| C32-C34 | scanner | fuel sufficiency, regex progress |
| C35-C38 | parser | fuel sufficiency, sentinel invariant, operator precedence invariant, prefix simulation |
| C39 | repr against scan+parse+eval | induction on values: tokens, reading relation, parse equations, meaning; counterexamples |
| C40 | unparse against scan+parse (`UnparseProof.v`), evaluation up to parentheses (`ParenProof.v`) | mutual induction on printable code (`SpecBlock.v`): its text is read as certain tokens, these are parsed as the code with parentheses around operands; simulation between interpreters on code that differs in parentheses; counterexamples |
| C41, C45, C64 | variables, assignment | state relations `rebound`, `only_adds` |
| C42, C60, C49 | whole evaluator | simulation by parametricity (`ExecRel.v`) |
| C43 | sequences of assignments | refinement: heap with separated variables against a table of plain values |
| C44, C54, C62, C63 | statements, loops, calls | equivalence with inductive relations |
| C46, C47 | fold, scan, comparison chains | induction on the items |
| C48 | short-circuit operators | case analysis on object truth |
| C68 | `parsing.py` against the grammar in `SpecGrammar.v` | soundness by induction on the fuel (`GrammarSound.v`), completeness by mutual induction on derivations (`GrammarComplete.v`), more fuel changes nothing (`ParseMono.v`), interpolated texts (`TemplateProof.v`) |
| C69 | the same | induction on the fuel: every incomplete run yields tokens after which the grammar derives a program (`GrammarOpen.v`); finality of bad syntax is C37; for lines of text: the tokens of a text are the first tokens of a text with more lines (`ResumeProof.v`) |
| C70 | `SpecRepl.v`: words, spellings and abbreviations of commands; an inductive description of whole sessions with their prompts and all ways to end | every input starts with the lines of one round (least prefix that is complete or bad); a semicolon line is complete code without statements; both directions by induction on the rounds, with the invariant that statements only take lines from the front of the input |
| C76 | `SpecMatch.v`: what each variable holds, in terms of the parts of the text | `MatchProof.v`: assigning a match adds objects and bindings only, and the bindings say what the match is; C71-C75 give the match |
| C77-C79 | `SpecMap.v`: calls in sequence, functions that compute something, kept items, keys | `MapProof.v`, `FilterProof.v`: each operator comes down to a sequence of calls with enough fuel; expressions over parameters compute their value (from C61 and C63); stable sorting as in C16 |
| C80, C81 | `SpecArith.v`: product of copies; the rational a number stands for; rounding as inequalities | `ArithProof.v`: floats as mantissa and exponent; quotients of integers below 2^53 round to the right side |
| C82-C85 | `SpecText.v`: letters, trimmed, translated and replaced text, grids, mirror images, lengths | `TextProof.v`: induction over texts, rows and index lists |
| C86 | `SpecRand.v`: what drawing leaves unchanged, k/2^53 as a float, seeded generators | `RandProof.v`: induction over the swaps of the shuffle in both directions; exactness of short mantissas |
| C87 | `SpecPick.v`: the item at an index and the rest | `PickProof.v`: symbolic execution for each kind of sequence; induction over the uses |
| C88 | `SpecRec.v`: the function of the innermost call | `RecProof.v`: the scope invariant of `ExecInv.v` |
| C89 | `SpecEach.v`: occurrences as reported by @, @* and ^, a step for each of them | `EachProof.v`: induction over the matches |
| C90 | `SpecVars.v` | `RecProof.v` |
| C91 | equality of values | `EqProof.v`: induction over values and parse trees together |
| C92 | `SpecLam.v`: what the expression of a function returns, defined on parse trees and argument values | `LamProof.v`: induction over that; `FilterProof.expression_computes` |
| C93 | `SpecAug.v`: the expression spelled out | `AugProof.v`: the first operand is evaluated once and first, by inspection of the table and of the three operators that take trees |
| C94 | `SpecAug.v` | `AugProof.v`: induction over the items |
| C95 | `SpecFun.v`: a mutually inductive semantics of expressions, operands, calls and sequences of calls on values | `FunProof.v`: mutual induction over that, with the invariant that the innermost scope holds the arguments and everything outside scopes only grows; `FunProof2.v`: factorial and greatest common divisor |
| C96 | `SpecFun.v`: the same semantics at any place (`inside`) | `StandProof.v`: what the result of an expression stands for, an object or a path from a variable, is kept by everything that only adds objects; `FunProof.v`: the mutual induction; `FunProof2.v`: sum and reverse |
| C97 | `SpecFun.v`: `index_of`, `sliceable` | `StandProof.v`: items and slices of objects and of paths; two refutations by computation |
| C98 | `SpecImp.v`: a mutually inductive semantics of expressions with effects, statements, loops, calls and mappings, relating the values of the variables before and after (`setting` for global variables, a function for the variables a to g) and the output | `ImpProof.v`: mutual induction, with the invariant of C95 and that the history variables hold values; `ImpProof2.v`: a new interpreter has the values of the table of constants, programs; `ImpProof3.v`: three programs, by induction over their loops |
| C99 | `prints` of `SpecImp.v`; sums, factorials and triangular numbers of the standard library's integers | `ImpProof4.v`: folds and scans of operators on integers, by induction over the list; the fold and scan rules of C98 rest on C46 |
| C100 | `prints` and `divisors` of `SpecImp.v`; divisibility and primes of the standard library | `ImpProof5.v`: the filter rule of C98, by induction over the range; counting divisors |
| C101 | `prints` of `SpecImp.v`, `fib` of `SpecImp2.v`; powers of the standard library's integers | `ImpProof6.v`: the rules of C98 for swapping and for U and D, by induction over the rounds |
| C102 | `SpecImp2.v`: `spins` (coinductive: round after round), `hangs` (statements that come to such a loop), `never_ends` (the outcome is lack of fuel, for every amount of fuel) | `ImpProof7.v`: induction over the fuel; up to the fuel given, everything before agrees with the outcome C98 describes or has run out of fuel |
| C103 | `prints` and `lines` of `SpecImp.v`; square roots of the standard library's integers | `ImpProof8.v`: the rule of C98 for chains of comparisons, by induction over the rounds |
| C104 | `program_text` of `SpecSource.v`: lines with newlines between them | `SourceProof.v`: induction over the lines and over the text |
| C105 | readable values of `SpecRepr.v`, `invokes` of `SpecImp.v` | `XargsProof.v`: induction over the expressions that spell values, which never yield Lvals |
| C71-C75 | `SpecRegex.v`: languages as sets of texts, gaps and matches of a scan | the matcher is sound and complete for a relational reading of regexes (`ReSound.v`), the scan cuts the text (`ReScan.v`), the parser of regexes is compositional (`ReParse.v`, `ReAlg.v`), brackets around a regex and the renumbering of its groups keep its matches (`ReShift.v`), escaped texts (`ReLit.v`), operators (`RegexProof.v`, `RegexScan.v`, `RegexStrip.v`) |
| C50, C51, C53, C65-C67 | `pip.py`, `List.__str__` | list induction, state relations |
| C52, C57 | in-place operators | heap reasoning, witnesses computed from program text |
| C58 | order of nested Lists | structural induction |
| C59 | `EVAL` | equivalence with running the statements |
| C61 | all pure operators | commutation of heap evaluation with value evaluation |

Properties that the code violates are kept as stated in `properties.jsonl`;
the model then yields a `..._refuted` theorem with a concrete witness next to
the strongest true version.


## Findings (claims that the code violates)

| id | witness | cause |
|---|---|---|
| C05 | adding to an infinite Range | the upper bound `None` is added to (execution.py ADD/SUB) |
| C10 | `,5` and `0,5`; `3,3` and `5,5` | `Range` keeps a missing lower bound apart from 0; bounds are compared, not elements |
| C12 | `"0\n"` is false | `$` in the zero regex matches before a final newline |
| C21 | `"a" CH 10` has 11 pieces | accumulated floating-point cut position |
| C30 | `"aabb" RM "ab"` is `"ab"` | one pass of `str.replace` |
| C38 | `1}2` | the top-level loop stops at `}` |
| C39 | repr of `-007`, `-1.50`, `-0` and of texts with `"` and backslash-letter | a minus sign is an operator; the repr with `\"` interpolates names |
| C40 | Blocks `{';}`, `{' }`, `{LR a;-b{c}}`, `{x: :y}` | the text of a Block is stripped of semicolons and spaces at its ends; operands of commands are not separated; `::` is another operator |
| C42 | a TypeError inside a key function of SK/DK | the exception is caught, the scope of the key function stays open (execution.py:3628-3641) |
| C43 | arguments, literals in Blocks, SCALAR_ONE, items made by M | shared mutable objects |
| C47 | `1>2<O 7` prints 7 | all operands of a chain are evaluated before CHAIN runs |
| C52 | after changing SCALAR_ONE by item assignment | `--`/`++` add the shared constant |
| C53 | fatal error in a function, next REPL line | functionCall closes its scope only on normal return |
| C55 | `10**16/1` counts as 1 | the integer regex stops at `e` |
| C56 | `HV 2**54+2` | division in floating point |
| C57 | pushing a Block with PU/PB | the operators build a lambda instead |
| C71 | ``"aaa" @* X"aa"`` has one place, `"aaa" @* "aa"` two | `finditer` against a search from every place |
| C72 | ``\1`` before an Arabic digit | `asRegex` counts with `\d`, which also matches other digits, so the reference is renumbered as a two-digit one |
| C73 | `(X"" , X"") + X"a"` matches the empty text; ``XL + -`b` `` matches `AB` | the regex is the single character `|` and `wrap` does not bracket those; flags are those of the whole regex |
| C74 | ``"ab" R `a)(b` `&` `` is `a` | the text of the Pattern is put into brackets without checking that it is a regex |
| C75 | ``"cab" |> (X"a",X"b")`` is `ca`; `<|` removes the `b` of `ab` + newline and keeps the newline; ``"Bc" |> -`b` `` is `Bc` | `^` and `$` are put around the regex without brackets; `$` also matches before a final newline; the flags are not passed on |
| C76 | ``"ab"~`a)(b` `` sets `$0` to `a`; ``y:"abab"@`b` y@1@0:'Q`` makes `$0` `Q` | `$0` is the group of the added bracket; the result of `@` and `$0` share the Scalar |
| C81 | `(10**17+1) \|< 7` is 100000000000000002; `RN 2**1024` raises OverflowError | the quotient is a float; `math.remainder` converts the integer to a float |
| C83 | `"abc" TM 0,5` is `"a"` | the end of the slice becomes negative and counts from the other side |
| C84 | `,5 RA 2 9` raises TypeError; `"" RA 0 1` raises ZeroDivisionError | `Range` has no `__setitem__`; the index is taken modulo the length |
| C97 | `x:1 y:2 [x;y]@>1` prints 12; `RP(""@,2)` is `()`, but `x:"" RP(x@,2)` is `""` | the slice is kept with the list of variables and `getRval` ignores it there; the check for empty sequences is made for values only |

Found while modelling, not part of a claim:

* `INCLRANGE` tests its left operand twice and its right one never, so
  `1 \\, [2]` returns Python's `None` (modelled as an unmodelled exception).
* The argument splitter drops the last argument if its quote is not closed
  (`C50_unclosed`).
* `h:[[1]]@_ y:(h 0) y@0:(h [0])` builds a cyclic List; printing it exceeds
  Python's recursion limit.
* `-l` and `-S` do not join Ranges inside Lists as they join Lists.
* End of input in the REPL raises an uncaught EOFError.
* NameErrors at execution.py:379 (assign), 2257 (MAPMAP), 4311 (ZIPDEFAULT).

## Axioms

All property theorems are "Closed under the global context". `coqchk` lists
seven constants of `Coq.ssr.ssrunder` as axioms of the library files loaded;
they are the parameters of a module type of the standard library and no
theorem depends on them.

## Mutation tests

`seeded/LOG.jsonl` records edits of the model in a scratch copy, the claim
each edit breaks, and the theorems that then failed to compile.
