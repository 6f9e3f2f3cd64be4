# Design: a Rocq (Coq 8.16.1) model of pcmacdon/jsish

Nothing here was obtained by building or running jsish: `/repo` was read as text.  The model is a set
of total Gallina functions, one per C function (or per case of a C `switch`), each with a comment citing
the file and lines it models and the simplifications made.

## Layout

For a component X (tree, hash, utf8, ...):

* `theories/X.v` (or `XModel.v`) – the model: definitions only, cited to `/repo`;
* `theories/XSpec.v` – the small independent specification (maps, lists, languages, big-step semantics);
* `theories/XProofs.v` – lemmas;
* `theories/XProps.v` – the theorems named in `MANIFEST.json`, the non-vacuity `Example`s, and
  `Print Assumptions` for every theorem.

Integers are `Z` (or `N`/`nat` where C's range cannot be exceeded); C wrap-around is explicit (`mod 2^32`).
Bytes are `Z` in 0..255 or `Ascii.ascii`.  A C string is the list of its bytes before the NUL.
Memory errors (reads past the end, use after free) are explicit outcomes of the model, never silently
totalised, where the property talks about them.

Theorems whose name ends in `_partial` prove only part of the property; those ending in `_refuted` prove
that the code, as modelled, does *not* have the property in general (a finding), always beside the
strongest positive theorem found.

## Per-property plan

| id | model | proof idea |
|----|-------|------------|
| C01–C03 | red-black tree of jsiTree.c; a node and its parent chain are a zipper (parent pointers = context list); each insert_case/delete_case is a function on the zipper | induction over operation histories; invariant = ordered + red-red-free + equal black height; abstraction to finite map |
| C04–C05 | buckets as arrays (lists) of chains; hash functions, rebuild, delete by unlinking | invariant "every entry is in the bucket of its index" ; refinement to finite map; iteration = concatenation of the chains |
| C06 | compare function with 32-bit truncation | refuted by witness; positive for keys within a 2^31 window |
| C07 | DString record (content, len, spaceAvl, static size) | invariant len < capacity; induction over operations |
| C08–C09 | encoder/decoder on bytes, by range of the code point | case split + bit arithmetic; induction over code-point lists |
| C10–C12 | JSON escaper, unescaper, jsmn state machine, printer and parser | simulation of the escaper by the scanner; induction on values |
| C13–C14, C44 | base64, URI, hex | induction by 3-byte groups / bytes |
| C15 | XXTEA on `list Z` mod 2^32, padding of Jsi_Encrypt | each step is inverted by its mirror; induction on rounds and positions |
| C16–C17 | update/final buffering with abstract compression function (Section variable), plus the concrete functions | invariant "state = fold over complete blocks, buffer = remainder" |
| C18 | nibble table CRC | linear algebra on 32-bit words, 16-entry table checked by computation, induction over bytes |
| C19–C21 | array object (arr, arrCnt, maxsize), loops as in C | loop invariants vs list specification |
| C22 | GlobMatch recursion with explicit end-of-string byte | equivalence with an inductively defined matching relation |
| C23–C25, C49–C52 | String commands on byte lists; SplitStr with its copy buffer and pointer table (StrModel) | induction; relational specifications (cut, trimmed, replaced) shown deterministic |
| C41–C43 | name lookup, bracket check, number bases | induction |
| C26–C27 | doubly linked list in a heap (finite map), stack array | representation predicate, history induction; refuted where a stale pointer is left |
| C28 | heap of counted cells; nineteen calls of the value/object API (Ref*) | invariant count = holders; decr by induction on the cells with a positive count; graph spec `unheld` |
| C29–C30 | event table + clock, transition system | invariants over all histories; refuted timer case |
| C31–C33 | access check on component lists; abstract realpath; interpreter records | case analysis, induction on creation chains; refuted escapes |
| C34–C38 | AST, code generator, VM (stack with variable references, try list, ip) | compiler correctness by induction on big-step derivations and on fuel; refuted evaluation-order and finally cases |
| C39–C40 | comparison functions | refuted by witness; positive on sub-domains |
| C45 | hash refinement with pointer identities | corollary of C04 invariant |
| C46 | node identity carried as the payload of the tree model | the payload of a surviving key is unchanged by any operation |
| C47 | the search loop over an abstract 32-byte digest | loop invariant; minimality of the nonce found |
| C48 | as C34–C38 | a stack-depth typing of generated code, preserved by every step |
| C53 | jsiLogicLess on SpecFloat doubles and byte strings | case analysis over the conversions |
| C54 | a file system with symbolic links; file commands as path + effect | induction on path resolution; refuted escapes |
| C55–C57 | jsiLexer.c on a byte string, with its put-back buffer | a token grammar (LexSpec) shown deterministic and equal to what yylex returns; induction on the remaining text |
| C58–C59 | printf %g/%f/%e and strtod as exact rational arithmetic rounded once; the code around them | error bounds on rationals (Q); a 17-digit decimal identifies a double |
| C60–C67 | the code generator and interpreter loop with calls, scopes, objects, prototypes; memory of cells and objects | simulation against a definitional interpreter on the syntax tree; invariants over all evaluations (single owner of each cell, scopes not values, decreasing prototypes); histories of scripts |
| C68 | Jsi_FormatString with its buffers' bounds; snprintf's output is a parameter | format strings as sequences of pieces with a written form and a meaning; induction over the pieces; bounds by invariants on the text that remains |
| C69 | common_bitwise_opr, OP_SHF, OP_BNOT on SpecFloat doubles | integer parts against rationals; exactness of integers below 2^53 from the rounding theorem of Num; bit-level extensionality |
| C70–C71 | StringReplaceCmd, jsi_RegExpMatches, RegexpExecCmd, search, test on bytes with a bound check for every pointer moved; the matcher and the callback are parameters | successive matches as an inductive relation; induction on it, fuel = length; templates as a grammar |
| C72 | map, filter, reduce, forEach, find, some, every on the array block and cells of C25, the callback an arbitrary transformer of the whole state | loops against a relational walk of the present array; the block never shrinks, so every read is inside it |
| C73 | objects as trees of pointers to values with their frozen flag; all ways a script changes properties, elements and variables as operations; histories | invariant: the values of the frozen object carry the flag and are held by properties only; every step keeps it |
| C74 | as C73: look-up along prototypes, insertion, deletion, in-place ++, sharing by Object.assign and Object.values | frame lemma for every operation; no two places share a value (invariant over histories); lines of prototypes |
| C75 | Jsi_IterGetKeys, OP_KEY, OP_NEXT with the body an arbitrary transformer of the whole state | induction over the line of prototypes and over the list of keys |
| C76 | jsi_ArgTypeCheck, jsi_RunFuncCallCheck, jsi_SharedArgs, jsi_FuncCallSub, jsi_typeGet, jsi_typeName with the body an arbitrary transformer | induction over the parameters; a specification by sets of type names instead of bit masks; the text via the theorem on split |
| C77 | Jsi_FunctionCall, Jsi_FunctionApply, jsi_FuncBindCall, jsi_FunctionInvoke | equality of outcomes; induction over the chain of bound functions |
| C78 | Jsi_OptionsFind | the candidates in front of a place, as a filter; the four cases of the search |
| C79 | jsi_SetOption_, Jsi_OptionsProcess, Jsi_OptionsConf, jsi_GetOption, Jsi_OptionsFree | frame theorem over nested values (which bytes an option can change); the last member by splitting the members; byte-level store and load |
| C80 | Jsi_OptionsProcess, jsi_ValueToSubopt, ValueToCArray | invariant over histories, induction over nested values with the frame theorem |
| C81 | jsi_ValueToEnum, jsi_EnumToValue, jsi_ValueToBitset, jsi_BitsetToValue | bit by bit, induction over the pieces |
| C82–C83 | regcomp after parsing (tree, tre_copy_ast, tre_expand_ast, nullable/firstpos/lastpos, transitions) and tre_tnfa_run_parallel without tags | Glushkov's construction: paths of the automaton against a denotation of the tree, induction on the tree; invariant of the parallel simulation; positions of copies by intervals |
| C84–C85 | the parser of patterns: tre_parse, parse_atom, parse_bracket, tre_parse_bracket_items, tre_expand_macro, parse_dup, tre_compare_items, marksub | a grammar of patterns with a printer and a meaning; simulation of the parser's machine on printed patterns by induction; gaps of sorted ranges; a measure for termination |

## What is modelled, and what is not, by component

Each `XModel.v` opens with a list of its simplifications; in short:

* **Tree, Hash, List, Stack, DString** – all functions of the map/list/stack/string API, with memory errors as
  outcomes. Not: lock and free callbacks, allocation failure, `Jsi_TreeFromValue`-style conversions.
* **Utf, Codec, Str, Glob, Misc, Dict** – the functions on byte strings. toupper/tolower/isspace are those of the C
  locale. Not: regular expressions (`replace`, `match`, `search` with a RegExp), `Jsi_FormatString`.
* **Digest, Xxtea** – all of jsiCrypto.c except the option parsing of the script command.
* **Num** – number ↔ text. The C library's `printf` and `strtod` are modelled as ISO C (Annex F, round to nearest,
  ties to even) requires of them; the double → Jsi_Wide cast is the x86-64 one; hexadecimal, `inf` and `nan`
  texts given to strtod are outside the model (`None`).
* **Json** – jsmn.c, JSON.parse, JSON.stringify for trees of plain values. Not: getters, functions, cyclic objects other
  than through the depth limit, the `strict`-off extensions except where stated.
* **Array** – the block of slots and its count, all mutators and readers. Not: reference counts (that is Ref), the
  object-form fallback (fields in the tree), `length` as an own field.
* **Val** – ===, ==, relational operators on SpecFloat (53,1024) doubles. String → number and value → string are parameters
  (the theorems hold for any).
* **Ref** – nineteen calls of the value/object API over a heap whose freed cells stay as holes.
* **Vm** – the grammar's semantic actions on ASTs (expressions over variables, statements, exceptions), the generated
  code, and the interpreter loop with its stack of values and variable references. Not: property access,
  function calls, `with`, `delete`, debugger hooks. Error messages are non-empty strings; line numbers are left out.
* **Fn** – functions, closures, method calls, `new`, `this`, object literals, members, prototypes, `instanceof`, with the
  code generator and the array of receivers. Not: built-in functions and properties, `arguments`, getters/setters,
  `delete`, freeze, exceptions caught across calls (an error ends the run), freeing of objects.
* **Limit** – the operation counter with everything else left open (an arbitrary oracle).
* **Event** – timers over the hash-table model; callbacks are arbitrary scripts of API calls.
* **Safe** – Jsi_InterpAccess, path normalisation, realpath over a file system with symbolic links, the guards of the file
  commands, creation of sub-interpreters. Not: virtual file systems, PATH_MAX, races with other processes.
* **Lex** – yylex on a string source. Line/column counts are left out; strtod and the compilation of a regular expression are
  parameters.
* **Fmt** – Jsi_FormatString (noCheck off) with the bounds of `spec[100]` and of the number buffer. Parameters: what snprintf
  prints for a number, the display and JSON forms of values.
* **Ops** – bitwise and shift operators on numbers. Casts of doubles out of range: what x86-64 does.
* **Rx** – replace, match, search, exec and test around the regular expression library. regexec and replacement functions are
  parameters (any function that reports positions in its text; any state transformer): what an expression matches is not modelled.
* **Hof** – array methods that take a function. The function is a parameter: it gets the cell of the element and may change the
  whole state; `this` and the array argument of the function are not modelled.

* **Obj** – properties, prototypes, freezing, enumeration. Not in it: accessors, the names this, callee, constructor and prototype,
  const variables, properties of functions and strings, for-in into a property, the flags dontdel and readonly.

* **Call** – typed calls, call, apply, bind. Not in it: checks while parsing, the argument checks of builtin functions, holes in
  argument arrays, addargs.

* **Opt** – options of objects and of the interpreter: tables, the record as bytes, setting, resetting and reading. Not in
  it: increments, NO_CLEAR, ENUM_SPEC, bit fields, times, STRKEY and dynamic strings, float, callbacks of the options, the
  argument check of functions, noCheck, access by path ("a.b", "a[3]"). A bool that is reset holds an arbitrary byte (junk).

* **Nfa** – the TRE engine in /repo/regex. Text is a list of characters (mbtowc is left out), locale functions and flags are a
  record. Tags are left out, so the theorems say whether there is a match, not which. The tree is the one tre_parse builds,
  numbered in the same order. Running stops at the first position with a match; from there on the code only moves match_eo.

* **Pat** – the parser in /repo/regex, extended syntax. A pattern is a list of characters (mbtowc is left out; an invalid byte is
  not a pattern of the model), the stack of the parser is a list, and the places of the bracket table are counted so that its
  limit is there. Back references are read as an error of their own (BackRef), since their matcher is not modelled. Basic syntax
  is left out: nothing in /repo/src asks for it. Memory failure is left out.

## Not modelled at all

Bison's LALR automaton (grammar actions are modelled on ASTs), the regular expression engine's tags (where a match and its groups begin and end) and its matcher for back references, sockets, websockets,
SQLite/MySQL, the zip file system, threads, memory allocation failure, signals, the debugger, C pre-processor
variants other than the default build.

## Trusted base

* Coq's kernel, 8.16.1, and its standard library (SpecFloat, QArith, ZArith, List). Nothing from any other library is used.
* `Print Assumptions` is run in `theories/Audit.v` (generated) on every theorem named in MANIFEST.json: each prints
  **Closed under the global context**. No axiom is declared and none is used, not even functional extensionality.
  (A listing of all axioms in the loaded environment, as `coqchk -o` makes, shows the seven fields of `Coq.ssr.ssrunder.Under_rel`;
  they come with the standard library's `ssreflect` file loaded by `lia`/`zify` and no theorem depends on them.)
* The faithfulness of the model to the cited lines of `/repo`, which was read and not run.
* What the C library and compiler are taken to do: qsort meets its contract (a hypothesis of C21), printf/strtod
  round correctly, out-of-range double → integer casts behave as on x86-64, `char` is signed, locale "C".

## Theorem names

`_partial` – part of a property, the missing part is in MANIFEST.json's note. `_refuted` – the code as modelled does not
have the stronger property; each of them is an exception named in the property's statement, kept so that the
restriction in the positive theorem is seen to be necessary. The other theorems are the positive claims.
