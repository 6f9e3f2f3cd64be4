{"id": "C01", "title": "Objects are maps: property set/get/delete", "statement": "After any history of property assignments and deletions on an object (the red-black tree that backs every JS object and the Jsi_Tree API), looking up a key yields the value of the most recent assignment to that key that was not followed by its deletion, and 'absent' otherwise; no other key is affected by an operation.", "quantifier": "every sequence of insert / overwrite / delete operations of any length, every key and every value", "why_tests_cant": "The rebalancing case taken depends on the whole history; unit tests visit a handful of the unboundedly many tree shapes.", "anchors": ["src/jsiTree.c: Jsi_TreeEntryFind, Jsi_TreeEntryNew, Jsi_TreeEntryDelete, insert_case1..5, delete_case1..6, rotate_left, rotate_right, replace_node, TreeSwapNodes"]}
{"id": "C02", "title": "Tree iteration visits every key exactly once in ascending order, and the size is right", "statement": "The in-order walk of a tree produced by any history lists exactly the keys present, each once, in strictly ascending key order, and Jsi_TreeSize is their number; the pre-, post- and level-order walks (Jsi_TreeWalk) list the same entries, each once. The search iterator lists the entries in order and in post-order (for up to 2^97 and 2^48 entries), and in level order for trees of at most 197 keys. (The iterator in level order loses its way in a larger tree, and in pre-order it never ends: both shown as refuted.)", "quantifier": "every history of tree operations, every walk order", "why_tests_cant": "Ordering is a global property of an unbounded structure built by an arbitrary history.", "anchors": ["src/jsiTree.c: Jsi_TreeSearchFirst, Jsi_TreeSearchNext, searchAdd, Jsi_TreeWalk, tree_inorder, Jsi_TreeSize"]}
{"id": "C03", "title": "Tree stays balanced", "statement": "After any history every root-to-leaf path of the tree has length at most 2*log2(n+1), where n is the number of keys: a script cannot make property access linear.", "quantifier": "every history of insertions and deletions of any length", "why_tests_cant": "A worst-case bound over all histories can only be proved.", "anchors": ["src/jsiTree.c: insert_case1..5, delete_case1..6"]}
{"id": "C04", "title": "Hash tables are maps", "statement": "After any history of Jsi_HashSet / Jsi_HashEntryNew / Jsi_HashEntryDelete on a table with one-word, string or struct keys, including any number of automatic table rebuilds, Jsi_HashGet / Jsi_HashEntryFind return the last value stored for the key and no entry for deleted or never-stored keys; no operation fails below 805306368 entries. (Not so for tables of the kind JSI_KEYS_STRINGKEY, and Jsi_HashClear leaves the old size behind: shown as refuted.)", "quantifier": "every sequence of operations, every key, every number of rebuilds", "why_tests_cant": "Whether an entry stays reachable depends on the bucket it was filed under before and after every rebuild; tests exercise few sizes and collision patterns.", "anchors": ["src/jsiHash.c: Jsi_HashEntryFind, Jsi_HashEntryNew, Jsi_HashEntryDelete, RebuildTable, OneWordHashCreate, StringHashFind"]}
{"id": "C05", "title": "Hash iteration visits every entry exactly once", "statement": "Walking a table with Jsi_HashSearchFirst / Next yields each present key exactly once and nothing else, its length equals Jsi_HashSize, and deleting the entry just returned does not disturb the rest of the walk. (Deleting another entry during the walk is a use after free: shown as refuted.)", "quantifier": "every reachable table; every subset of visited entries that is deleted during the walk", "why_tests_cant": "The visiting order depends on hash values and on history; interleaving deletion with the walk multiplies the cases beyond enumeration.", "anchors": ["src/jsiHash.c: Jsi_HashSearchFirst, Jsi_HashSearchNext, Jsi_HashSize, Jsi_HashEntryDelete"]}
{"id": "C06", "title": "One-word tree keys: distinct keys are distinct", "statement": "In a tree with one-word keys that all lie in one window of 2^31 consecutive numbers two different keys never denote the same entry, and the tree is a map. (Outside of such a window different keys can collide, and the order is circular: shown as refuted.)", "quantifier": "every pair of 64-bit keys", "why_tests_cant": "Fails only for keys that differ by a multiple of 2^32, which tests with small integers never hit.", "anchors": ["src/jsiTree.c: Jsi_TreeCompareOneWord (OneWordCompare)"]}
{"id": "C07", "title": "Dynamic strings: append is concatenation", "statement": "After any sequence of appends, truncations, sets and frees on a dynamic string its content is the concatenation that the calls describe, its length is the content's length, and no write falls outside the allocated space; an append is lost only if the string would reach half of the documented size limit; without reservations a NUL follows the content. Formatted text is appended if it is shorter than 8192 characters and fewer than 8192 bytes are to spare. (Otherwise it is lost entirely, and the value of a reserved string is not terminated: shown as refuted.)", "quantifier": "every sequence of append / set-length operations, of strings of every length", "why_tests_cant": "The switch from the inline buffer to the heap and each doubling depend on the accumulated length.", "anchors": ["src/jsiDString.c: Jsi_DSAppendLen, Jsi_DSSetLength, Jsi_DSInit, Jsi_DSFree"]}
{"id": "C08", "title": "UTF-8 encode/decode round trip", "statement": "Encoding any Unicode code point to UTF-8 and decoding the bytes gives the code point back and consumes exactly the bytes written, whatever bytes follow; decoding a sequence of encoded code points yields the sequence.", "quantifier": "every code point 0..0x10FFFF and every sequence of them", "why_tests_cant": "Over a million code points, and unboundedly many sequences and following contexts.", "anchors": ["src/jsiUtf8.c: Jsi_UniCharToUtf, Jsi_UtfToUniChar"]}
{"id": "C09", "title": "String length and indexing count characters, not bytes", "statement": "For every string made of valid UTF-8 characters, length is the number of characters; charCodeAt(i), s[i] and substr(i) select exactly the characters with those indices, counted from the end if negative; the byte offset of a character index is the length of the encoding of the characters before it; charAt(i) and substr(i,n) select the right characters if the first one selected is ASCII or the selection reaches the end. (Otherwise they return too much, and substr with a negative start never ends on the empty string: shown as refuted.)", "quantifier": "every sequence of code points, every index and count", "why_tests_cant": "Multi-byte characters at every position in every combination cannot be enumerated.", "anchors": ["src/jsiUtf8.c: Jsi_NumUtfChars, Jsi_UtfIndexToOffset, Jsi_UtfAtIndex, jsi_UtfGetIndex, jsi_UtfSubstr"]}
{"id": "C10", "title": "JSON string quoting round trip", "statement": "The quoted form of every byte string is a single well-formed JSON string token (no character of the content can end it early), made of printable ASCII; and parsing it gives the string back for every text of characters up to U+FFFF. (Characters beyond U+FFFF do not survive, and neither does the escape \\/ in JSON input: shown as refuted.)", "quantifier": "every byte string without NUL", "why_tests_cant": "Any character may need escaping, at every position, next to every other; injection needs only one bad case.", "anchors": ["src/jsiUtils.c: jsiValueGetString (string case)", "src/jsiJSON.c: jsonNewDString, Jsi_JSONQuote", "src/jsmn.c: jsmn_parse_string"]}
{"id": "C11", "title": "JSON stringify / parse round trip", "statement": "JSON.parse(JSON.stringify(v)) gives back v for every tree of null, booleans, numbers, strings of characters up to U+FFFF, arrays and objects whose field names have no quote or backslash, nested up to the depth limit. Numbers: every normal double other than -0 if numbers are printed with 17 digits or more; with any precision the integers from -2^63 to 2^63 and the numbers read from decimals with no more digits than are printed (15 by default). (With the default precision 1/3 comes back changed; -0 and subnormal numbers never come back; quotes and backslashes in field names, and an undefined field, give text that is not read back: shown as refuted.)", "quantifier": "every finite value, of every nesting depth and width", "why_tests_cant": "Structural recursion over unbounded values.", "anchors": ["src/jsiUtils.c: jsiValueGetString, jsi_ObjectGetFmt", "src/jsiJSON.c: Jsi_JSONParse, jsonGen1Value, jsonGenArray, jsonGenObject", "src/jsmn.c: jsmn_parse"]}
{"id": "C12", "title": "The JSON tokenizer is total and its tokens are well nested", "statement": "For every input the tokenizer terminates; every token it returns lies inside the input (0 <= start <= end <= length); tokens are emitted in order of start position; two tokens are either disjoint or nested; a container token starts and ends at matching brackets.", "quantifier": "every byte string as input", "why_tests_cant": "Malformed input is adversarial and unbounded.", "anchors": ["src/jsmn.c: jsmn_parse, jsmn_parse_primitive, jsmn_parse_string, jsmn_fill_token"]}
{"id": "C13", "title": "base64 round trip", "statement": "Decoding the base64 encoding of any byte string gives the string back; the encoding uses only the base64 alphabet, '=' and newlines; its length is determined by the input length.", "quantifier": "every byte string of every length", "why_tests_cant": "Padding (length mod 3), line breaks every 72 output characters and every byte value interact.", "anchors": ["src/jsiCmds.c: B64EncodeDStr, B64DecodeDStr, b64getidx, Jsi_Base64"]}
{"id": "C14", "title": "encodeURIComponent / decodeURIComponent round trip", "statement": "decodeURIComponent(encodeURIComponent(s)) is s for every string s without '%', and decodeURI(encodeURI(s)) for every s without '%' and '+'; an encoded component holds none of the separators of a URI; the result always fits the buffer. ('%' is not escaped, so strings with it do not survive: shown as refuted.)", "quantifier": "every string without NUL", "why_tests_cant": "Any character sequence, including ones that look like an escape, may occur.", "anchors": ["src/jsiCmds.c: url_encode, url_decode"]}
{"id": "C15", "title": "Encrypt / decrypt round trip", "statement": "Decrypting with the key used for encryption returns the original data, for all data of two or more bytes and all keys; different data give different ciphertexts under one key; the ciphertext has the padded length plus one. (Data of 2 to 4 bytes is left in the clear: shown as refuted.)", "quantifier": "every byte string of every length >= 2 and every 16-byte key", "why_tests_cant": "The block permutation is a data-dependent chain of 32-bit additions; no sample of inputs implies invertibility.", "anchors": ["src/jsiCrypto.c: jsi_btea, Jsi_Encrypt, Jsi_Decrypt"]}
{"id": "C16", "title": "Hash digests depend only on the bytes, not on how they are chunked", "statement": "Feeding a message to SHA-256, SHA-1 or MD5 in any pieces gives the digest of the standard's padded message; in particular the digest of a file read in blocks equals that of its contents.", "quantifier": "every message, every way of cutting it into update calls", "why_tests_cant": "The buffering logic has a case for every residue modulo 64 and every chunk length.", "anchors": ["src/jsiCrypto.c: jsi_sha256Update, jsi_sha256Final, jsi_sha1Update, jsi_sha1Final, jsi_md5Update, jsi_md5Final"]}
{"id": "C17", "title": "SHA-3 digest", "statement": "The SHA-3 digest does not depend on the chunking, for every message; it is that of the sponge construction of FIPS 202 for every message shorter than one block, and for longer ones if the last complete block is zero beyond the length of the rest. (Otherwise it is wrong, because the buffer is not cleared before padding, and the command mixes up the digest sizes: shown as refuted.)", "quantifier": "every message and chunking", "why_tests_cant": "Padding goes wrong only when stale bytes remain in the block buffer, i.e. for messages longer than one block.", "anchors": ["src/jsiCrypto.c: jsi_sha3Update, jsi_sha3Final"]}
{"id": "C18", "title": "crc32 is the CRC-32 and can be computed incrementally", "statement": "Jsi_Crc32 equals the bit-serial reflected CRC-32 (polynomial 0xEDB88320) of its input, and the CRC of a concatenation is obtained by continuing from the CRC of the first part.", "quantifier": "every byte string, every split of it", "why_tests_cant": "2^8n inputs; the nibble table must be right for each of them.", "anchors": ["src/jsiCmds.c: Jsi_Crc32"]}
{"id": "C19", "title": "Array mutators behave as list operations", "statement": "push, pop, shift, unshift, splice, reverse, fill and assignment to an element transform the sequence of elements as documented, return the documented value and keep length equal to the number of elements, for all sequences of such calls with all arguments on arrays without holes below the size limit; for all arrays and all calls at all, no access is out of bounds. (Shown as refuted: shift onto a hole, unshift without arguments, splice beyond the end, push at the size limit.)", "quantifier": "every array, every argument (negative, zero, beyond the end) and every sequence of such operations", "why_tests_cant": "Index arithmetic over unbounded lengths; boundary combinations of start/count/length.", "anchors": ["src/jsiArray.c: jsi_ArrayPushCmd, jsi_ArrayPopCmd, jsi_ArrayShiftCmd, jsi_ArrayUnshiftCmd, jsi_ArraySpliceCmd, jsi_ArrayReverseCmd, jsi_ArrayFillCmd", "src/jsiObj.c: Jsi_ObjArraySizer, Jsi_ObjSetLength, Jsi_ObjArraySet"]}
{"id": "C20", "title": "Array readers behave as list operations", "statement": "slice, concat, indexOf, lastIndexOf, map, filter, some, find, findIndex, reduce, every on at least one element, reduce without initial value on an array that does not start with a hole, and join of an array without holes return what the documented list operation returns, for callbacks that do not change the array; what holes there are is passed over. (Shown as refuted: every on no element, reduce from a hole, join with holes, the start argument of lastIndexOf, and the sharing of elements between an array and its filtered copy.)", "quantifier": "every array and every argument", "why_tests_cant": "Same as C19.", "anchors": ["src/jsiArray.c: jsi_ArraySliceCmd, jsi_ArrayConcatCmd, jsi_ArrayIndexSubCmd, jsi_ArrayFindSubCmd, jsi_ArrayReduceSubCmd, jsi_ArrayMapCmd, jsi_ArrayFilterCmd, jsi_ArrayJoinCmd"]}
{"id": "C21", "title": "Array.sort returns an ordered permutation", "statement": "Provided the C library's qsort meets its contract (a sorted permutation for every consistent comparison), sort yields a permutation of the array ordered by the requested comparison, for every consistent comparison function with integer answers; with the unique flag the elements left of an array without holes are strictly increasing, come from the array and represent each of its elements. (Fractions returned by the comparison are cut to integers, and a stale slot is left behind: shown as refuted.)", "quantifier": "every array of any length and every total order on its elements", "why_tests_cant": "Number of inputs grows factorially; ordering is a global property.", "anchors": ["src/jsiArray.c: jsi_ArraySortCmd, SortSubCmd, SortUnique"]}
{"id": "C22", "title": "Glob matching", "statement": "Jsi_GlobMatch(pattern, string) is true exactly when the string is in the language of the pattern, where '*' is any string, '?' any one character, '[..]' a character range or set, and backslash quotes; matching always terminates and never reads past the end of either string; except for a pattern starting with '?' on the empty string, and for characters above 255 without regard to case. (In these cases it reads out of bounds: shown as refuted.)", "quantifier": "every pattern and every string", "why_tests_cant": "Backtracking over unbounded patterns and strings.", "anchors": ["src/jsiUtils.c: Jsi_GlobMatch, jsi_CharsetMatch"]}
{"id": "C23", "title": "split and join are inverse", "statement": "Splitting a string on a non-empty separator gives the pieces between the left-to-right non-overlapping occurrences of the separator, and joining the pieces with it gives the string back.", "quantifier": "every string and every non-empty separator", "why_tests_cant": "Overlapping and boundary occurrences of arbitrary separators.", "anchors": ["src/jsiUtils.c: Jsi_SplitStr, SplitChar", "src/jsiString.c: StringSplitCmd", "src/jsiArray.c: jsi_ArrayJoinCmd"]}
{"id": "C24", "title": "String search", "statement": "indexOf returns the least position at or after the start where the pattern occurs, lastIndexOf (for a pattern that is not empty) the greatest, and -1 exactly when there is none; positions are byte offsets, which on ASCII text are the positions that subscripts use. (With the empty pattern lastIndexOf is wrong, and on other text positions are not subscripts: shown as refuted.)", "quantifier": "every string, pattern and start position", "why_tests_cant": "All occurrences patterns, empty patterns, negative starts.", "anchors": ["src/jsiString.c: StringIndexOfCmd, StringLastIndexOfCmd", "src/jsiChar.c: Jsi_Strpos, Jsi_Strrpos, Jsi_Strrstr"]}
{"id": "C25", "title": "trim", "statement": "trim removes exactly the leading and trailing whitespace, or bytes of the given set, and nothing else; trimLeft and trimRight remove one side. (The set is one of bytes, so trimming a character that is not ASCII may cut others: shown as refuted.)", "quantifier": "every string and every trim set", "why_tests_cant": "Strings made only of whitespace, interior whitespace, and every mix of them.", "anchors": ["src/jsiUtils.c: Jsi_DSTrim / jsi_TrimStr", "src/jsiString.c: StringTrimCmd"]}
{"id": "C26", "title": "Linked-list API", "statement": "Any number of Jsi_Lists, used as documented, behave as sequences of entries with the right size through any history of new, push, pop, delete, clear and value calls, no dead pointer is used, and the forward search visits the sequence from first to last, the backward search from last to first if the front entry was put there. (Shown as refuted, and so excluded: deleting the only entry of a list, back of a cleared list, pushing the front entry to the front again, pushing after the old list is gone, backward search after removal of the front.)", "quantifier": "every history of push-front / push-back / pop / delete", "why_tests_cant": "Pointer surgery on an unbounded list: a stale link shows only after particular histories.", "anchors": ["src/jsiUtils.c: Jsi_ListPush, Jsi_ListPop, Jsi_ListEntryDelete, Jsi_ListEntryNew"]}
{"id": "C27", "title": "Stack API", "statement": "Jsi_Stack push/pop/peek/unshift/shift/head behave as a sequence for any history, through any number of growths, as long as it holds at most 369098750 elements. (One more overflows the heap: shown as refuted.)", "quantifier": "every history of operations", "why_tests_cant": "Growth is triggered by history; the element order must survive each memmove.", "anchors": ["src/jsiUtils.c: Jsi_StackPush, Jsi_StackPop, Jsi_StackUnshift, Jsi_StackShift, Jsi_StackPeek, Jsi_StackHead"]}
{"id": "C28", "title": "Reference counts: no early free, no leak", "statement": "A program that uses the value and object API by its rules (it lets go only of what it holds, uses only what it can get at, does not copy a value nobody has ever held, replaces an element, property or payload only by something that stays alive without the old one, gives an object its prototype at most once, and keeps counts below 2^31) never touches or frees a freed value or object; after every call the count of each one is the number of its holders (the program's own references and those from other values and objects), everything the program can get at is still there, and whatever nobody holds has been freed; so without circles of references what is in memory is exactly what the program can get at, and when it has let go of everything nothing is left.  Circles of references are never freed.", "quantifier": "every sequence of calls (creating, holding, letting go, assigning, copying, moving, duplicating, inserting and deleting properties, setting elements and prototypes, replacing), any number of values and objects, any shape of references", "why_tests_cant": "Lifetime errors depend on the global order of operations.", "anchors": ["src/jsiValue.c: Jsi_IncrRefCount, Jsi_DecrRefCount, ValueFree, Jsi_ValueReset, jsi_ValueCopyMove, ValueDup, Jsi_ValueReplace, Jsi_ValueMakeObject, Jsi_IsShared", "src/jsiObj.c: Jsi_ObjIncrRefCount, Jsi_ObjDecrRefCount, Jsi_ObjFree, Jsi_ObjArrayAdd, Jsi_ObjArraySet, jsi_TreeObjSetValue", "src/jsiProto.c: jsi_SetPrototypeOfCmd"]}
{"id": "C29", "title": "Timers fire when due and not before", "statement": "A timer set with setTimeout/setInterval(f, ms) does not run before ms milliseconds have passed since it was set or last ran, unless it falls due at a whole second of the clock; in a pass whose callbacks leave the timers alone every due timer runs exactly once; a setTimeout runs at most once; update(ms) waits ms milliseconds within one second of the clock, and otherwise at least ms-1000. (Shown as refuted: timers due at a whole second run at once, update returns early over the end of a second, and a due timer can be skipped in a pass whose callbacks create timers.)", "quantifier": "every history of timer creation, clearing, clock advances and event passes; every period and every clock value", "why_tests_cant": "The failing clock values (due time at an exact second) are one in a thousand and depend on wall-clock time.", "anchors": ["src/jsiCmds.c: intervalTimer, Jsi_EventProcess, clearIntervalCmd, Jsi_EventNew"]}
{"id": "C30", "title": "Event ids are unique and a cleared timer never runs", "statement": "The id returned by setTimeout/setInterval differs from that of every other event; after clearInterval(id) the callback is never called again; events created by a callback do not run in the same pass; and as long as callbacks do not clear timers or run updates, freed memory is not used. (Shown as refuted: a callback that clears its own or another timer, or updates, makes the loop use freed memory.)", "quantifier": "every history of creating, clearing and processing events", "why_tests_cant": "Depends on arbitrary interleavings of callbacks with table updates.", "anchors": ["src/jsiCmds.c: intervalTimer, Jsi_EventNew, clearIntervalCmd, Jsi_EventProcess, Jsi_EventFree"]}
{"id": "C31", "title": "Safe mode confines file access", "statement": "In a safe interpreter access to an existing file or directory is let through only if the object denoted by the path, through any symbolic links, equals one of the configured directories or lies underneath one of them, and always if it does; with no directories configured nothing is let through. (Paths that begin with a tilde are not covered; a configured directory that is the root itself admits nothing, shown as refuted.)", "quantifier": "every path string, every set of configured directories, every file system (symlinks included)", "why_tests_cant": "Security: one escaping path among infinitely many suffices.", "anchors": ["src/jsiInterp.c: Jsi_InterpAccess", "src/jsiFileCmds.c: SAFEACCESS, MkdirCmd, RenameCmd, WriteCmd", "src/jsiFilesys.c: Jsi_FileRealpathStr, Jsi_Open"]}
{"id": "C32", "title": "Path normalisation removes . and .. correctly", "statement": "Normalising an absolute path for access to a new file removes every '.' and resolves every '..' against the component before it, so that the result denotes the same object (in the absence of symbolic links) and contains no '.' or '..' component, if a '.' or '..' component is followed by a slash and no '..' is met when a single component is left; a path without '.' and '..' keeps its components; File.normalize does so for absolute paths without '..' that neither start nor end in '.'. (The other cases are shown as refuted.)", "quantifier": "every path string", "why_tests_cant": "Arbitrary nestings of '.', '..', empty components.", "anchors": ["src/jsiFilesys.c: NormalizeUnixPath, Jsi_NormalPath, Jsi_FileRealpathStr"]}
{"id": "C33", "title": "A safe interpreter cannot create a less confined one", "statement": "Every interpreter created, directly or through any chain of sub-interpreters and reconfigurations without the lockDown option, from a safe interpreter is safe, has the same safe mode and operation limits, and is given no file access at all. (The lockDown option, and Interp.source on a first script, do give access to further directories: shown as refuted.)", "quantifier": "every chain of sub-interpreter creations with arbitrary options", "why_tests_cant": "Option combinations and creation depth are unbounded.", "anchors": ["src/jsiInterp.c: jsi_InterpNew"]}
{"id": "C34", "title": "Compiled code computes what the program means: expressions", "statement": "For every expression the generated bytecode, run by the interpreter loop, terminates with exactly one extra value on the stack, which is the value of the expression, and with the variable updates of the expression performed, including short-circuit && || ?: and assignment operators.", "quantifier": "every expression tree, every initial state", "why_tests_cant": "Compiler correctness: unboundedly many programs and states.", "anchors": ["src/parser.y: expr", "src/jsiCode.c: code_* and codes_join", "src/jsiEval.c: jsiEvalCodeSub"]}
{"id": "C35", "title": "Compiled code computes what the program means: statements and loops", "statement": "For every statement built from expressions, blocks, if, while, do-while, for, switch, break and continue, the bytecode terminates iff the program does, with the same final variables, and leaves the operand stack as it was.", "quantifier": "every statement, every state, every number of loop iterations", "why_tests_cant": "Compiler correctness over unbounded programs and iteration counts.", "anchors": ["src/parser.y: statement, iterstatement, if", "src/jsiCode.c: code_reserved_replace, code_jfalse, code_jmp", "src/jsiEval.c: jsiEvalCodeSub"]}
{"id": "C36", "title": "Operands are evaluated left to right", "statement": "In every expression a variable operand has the value it had when evaluation reached it, even if a later operand assigns to it.", "quantifier": "every expression and state", "why_tests_cant": "Only wrong for particular aliasing between operands.", "anchors": ["src/jsiEval.c: jsiPushVar, jsiVarDeref, OP_ADD"]}
{"id": "C37", "title": "try/catch/finally", "statement": "The finally block runs exactly once however the try or catch block is left (normally, by throw, by break/continue, by return), and an exception is delivered to the innermost enclosing catch.", "quantifier": "every nesting of try statements and every way of leaving them", "why_tests_cant": "Nested non-local exits are unbounded in number.", "anchors": ["src/parser.y: try", "src/jsiEval.c: OP_STRY, OP_ETRY, OP_SCATCH, OP_ECATCH, OP_SFINAL, OP_EFINAL, OP_THROW, jsiDoThrow, OP_RET"]}
{"id": "C38", "title": "Operation limit stops every program", "statement": "With maxOpCnt set to a limit between 1 and 2147483646 every script evaluation ends after at most that many bytecode operations (plus one), whatever the program, and an evaluation that needs no more than the limit is not disturbed by it.", "quantifier": "every program, every state of the interpreter's counter and every limit in the range", "why_tests_cant": "Non-termination cannot be tested.", "anchors": ["src/jsiEval.c: jsiEvalCodeSub (maxOpCnt)"]}
{"id": "C39", "title": "Dictionary order of strings", "statement": "The dictionary comparison used by sort always answers, is 0 for a string and itself and changes sign when its arguments are swapped; on text without the six characters between Z and a ([ \\ ] ^ _ and backquote) it is transitive, and equal only for identical texts if no comma follows a digit. Numbers inside texts that agree before them are ordered by value whatever their length, and text without digits alphabetically regardless of case. (With underscores it is not an order: Z < _ < a < Z.)", "quantifier": "every pair and triple of strings", "why_tests_cant": "Order laws range over all triples of strings and the code has three interleaved loops.", "anchors": ["src/jsiChar.c: Jsi_DictionaryCompare", "src/jsiArray.c: sort"]}
{"id": "C40", "title": "Equality operators", "statement": "=== is symmetric and transitive, and reflexive except for NaN; for strings without NUL it holds exactly when both are the same object or the same primitive (a wrapper object counting as its primitive, numbers compared by value). == is symmetric, follows from === for primitives, relates undefined only to undefined and null among primitives, and between a number and a numeric string, boolean or null is true if the values are equal and only if they differ by less than 1, so that for whole numbers it is numeric equality. (It is not numeric equality for fractions, and an ordinary object == null: shown as refuted.)", "quantifier": "all values, heaps and string-to-number conversions, all IEEE doubles", "why_tests_cant": "Ranges over all pairs and triples of values and over double rounding.", "anchors": ["src/jsiValue.c: Jsi_ValueIsEqual, Jsi_ValueCmp, jsi_ValueToPrimitiveRes, Jsi_ValueToNumberInt", "src/jsiEval.c: OP_EQUAL, OP_STRICTEQU"]}
{"id": "C41", "title": "Option/enum name lookup", "statement": "Looking up a name in a table returns the index of the unique entry that it is or abbreviates, of the exact match if no entry before it extends it, and an error when it abbreviates none or (looking up with case) several of which the first is longer; with the exact flag only exact matches count. (An exact match after a longer entry is not found, and without case several matches may not be reported: shown as refuted.)", "quantifier": "every table of names and every key", "why_tests_cant": "Arbitrary prefix relations among names.", "anchors": ["src/jsiUtils.c: Jsi_GetIndex"]}
{"id": "C42", "title": "Balanced-bracket check for interactive input", "statement": "For text whose brackets are properly nested, and whose quoted strings hold no brackets, the interactive shell asks for more input exactly when a bracket is open. (Brackets that do not match or stand in strings are misjudged: shown as refuted.)", "quantifier": "every string", "why_tests_cant": "Nesting is unbounded.", "anchors": ["src/jsiUtils.c: jsi_StrIsBalanced"]}
{"id": "C43", "title": "Number parsing and formatting in a base", "statement": "A whole number up to 2^53 written with Number.toString(b) and read with parseInt(s, b) gives the number back for the bases 8, 10 and 16 (in base 10 also if negative); parseInt reads white space, a sign and the longest numeral of every base up to 33, and after 0x a hexadecimal one; option values are decimal numbers with white space and a sign around which nothing else may stand, or 0x/0o/0b numerals with a sign before them, and booleans by any abbreviation. (Other bases print decimal, negative numbers their two's complement; bases above 33, a leading zero, a sign after the prefix and numbers beyond an int go wrong: shown as refuted.)", "quantifier": "every integer and base", "why_tests_cant": "Every digit count and base.", "anchors": ["src/jsiNumber.c: NumberToStringCmd", "src/jsiCmds.c: parseIntCmd", "src/jsiUtils.c: JsiNumberBase, jsi_strtoull, Jsi_GetWide, Jsi_GetInt, Jsi_GetBool"]}
{"id": "C44", "title": "Hex encoding round trip", "statement": "Converting bytes to hex and back gives the bytes.", "quantifier": "every byte string", "why_tests_cant": "All bytes at all positions.", "anchors": ["src/jsiUtils.c: Jsi_ToHexStr, Jsi_FromHexStr, Jsi_HexStr"]}
{"id": "C45", "title": "Interned keys", "statement": "Interning is stable: two equal strings always intern to the same key pointer and unequal ones to different pointers, for the life of the interpreter.", "quantifier": "every history of interning calls", "why_tests_cant": "Depends on table rebuilds in the middle of the history.", "anchors": ["src/jsiUtils.c: Jsi_KeyAdd, Jsi_KeyLookup", "src/jsiHash.c"]}
{"id": "C46", "title": "Entry pointers stay valid", "statement": "The entry pointer handed out by Jsi_TreeEntryNew / Jsi_TreeEntryFind for a tree with string keys keeps denoting the entry of its key until that key is deleted, whatever other keys are inserted or deleted in the meantime. (For one-word trees and the trees of objects deleting another key can free it: shown as refuted.)", "quantifier": "every history of operations on other keys", "why_tests_cant": "Deletion of an unrelated key moves nodes only for particular tree shapes.", "anchors": ["src/jsiTree.c: Jsi_TreeEntryDelete, TreeSwapNodes, replace_node"]}
{"id": "C47", "title": "Proof-of-work search", "statement": "The hash command with hashcash:n returns the digest of the data followed by ':' and an 8-digit hexadecimal nonce, its first n bits are zero, and no smaller nonce has that property.", "quantifier": "all data, all strengths, all digest functions", "why_tests_cant": "Which nonce is found, and whether the last partial byte is masked correctly, differs for every input.", "anchors": ["src/jsiCrypto.c: Jsi_CryptoHash"]}
{"id": "C48", "title": "Generated code never corrupts the interpreter's stack", "statement": "For every program of the modelled fragment whose break and continue statements do not leave a try statement with a finally block out of a for-in or switch, the bytecode, run from any state, never pops from an empty operand stack, never finds a stack slot of the wrong kind and never meets an inconsistent list of active try statements, whatever mixture of loops, switch, try, break, continue, return, throw and failing operators it contains. (The excluded case is shown as refuted.)", "quantifier": "every program of the modelled fragment, every state, every number of executed operations", "why_tests_cant": "The stack discipline must hold on every path through every program.", "anchors": ["src/parser.y: statement", "src/jsiCode.c: code_reserved_replace", "src/jsiEval.c: jsiEvalCodeSub, jsiDoThrow, jsiPop"]}
{"id": "C49", "title": "Upper and lower case", "statement": "toUpperCase and toLowerCase change exactly the ASCII letters to the other case and keep every other character; toTitle does the first to the first character and the second to the others; if the last character of the text is ASCII. (If it is not, it is always lost: shown as refuted.)", "quantifier": "every string of Unicode characters", "why_tests_cant": "Multi-byte characters at every position, in particular at the end.", "anchors": ["src/jsiString.c: jsi_utf_tocase, StringToUpperCaseCmd, StringToLowerCaseCmd, StringToTitleCmd"]}
{"id": "C50", "title": "substring and slice", "statement": "substring(a,b) is the characters from position a to position b, both included (as the test suite expects), if the first of them is ASCII or they reach the end, and empty if b < a; substring(a) and slice(a) are the text from a on, a negative a counting from the end (in slice of ASCII text only); slice(a,b) where a is the beginning is the text up to but not including b. (From another start slice takes b as a length, a start past the end gives the last character, and negative positions count bytes: shown as refuted.)", "quantifier": "every string and all positions", "why_tests_cant": "All combinations of positions inside and outside of the string.", "anchors": ["src/jsiString.c: StringSubstringCmd, StringSliceCmd", "src/jsiUtf8.c: Jsi_UtfSubstr"]}
{"id": "C51", "title": "repeat and concat", "statement": "s.repeat(n) is n copies of s, if s is not empty, s.concat(t1,t2,..) the strings one after the other; if the result would exceed the limit an error is reported. (Repeating the empty string is an error: shown as refuted.)", "quantifier": "every string, count and argument list", "why_tests_cant": "The limit is on the accumulated length.", "anchors": ["src/jsiString.c: StringRepeatCmd, StringConcatCmd"]}
{"id": "C52", "title": "String.map", "statement": "String.map scans from left to right; at each position the first pair of the table whose key starts there is replaced by its value and the scan goes on after the key, other bytes are kept.", "quantifier": "every string and table", "why_tests_cant": "Overlapping keys, keys that are prefixes of each other, matches at the end of the string.", "anchors": ["src/jsiString.c: StringMapCmd"]}
{"id": "C53", "title": "Relational operators", "statement": "On numbers that are not NaN <, >, <= and >= are the order of the values; on strings without NUL < is the alphabetical order of the bytes; of two numbers or two strings exactly one of a<b, a===b, a>b holds. (A number and a string are compared as strings: \"10\" < 9, shown as refuted.)", "quantifier": "all IEEE doubles and all strings, in both check modes", "why_tests_cant": "Ranges over all pairs of values.", "anchors": ["src/jsiEval.c: jsiLogicLess, OP_LESS, OP_GREATER, OP_LESSEQU, OP_GREATEREQU"]}
{"id": "C54", "title": "Safe mode confines the creation of files", "statement": "In a safe interpreter a command that creates a file or directory at a path, or changes or reads what is there, does so only if the access check lets the path through, and then the object created lies underneath one of the configured directories.", "quantifier": "every path string, every set of configured directories, every file system (symbolic links included), every file command", "why_tests_cant": "Security: one escaping path among infinitely many suffices.", "anchors": ["src/jsiInterp.c: Jsi_InterpAccess", "src/jsiFileCmds.c: SAFEACCESS, MkdirCmd, RenameCmd, WriteCmd", "src/jsiFilesys.c: Jsi_FileRealpathStr, NormalizeUnixPath, Jsi_Open"]}
{"id": "C55", "title": "The tokens of a program", "statement": "A program text built from names, keywords, numbers, string and regular-expression literals, operators, white space and comments is split into exactly these tokens, in this order, always the longest possible one; there is only one way to read it. (A line break is not noticed before a comment, after a comment or in a string, 0e1 and 0x-1 are misread, a word of more than 8190 characters and a non-ASCII byte outside of strings end the program, and ... is not one token: shown as refuted.)", "quantifier": "every program text built from tokens and separators", "why_tests_cant": "Infinitely many texts; longest match and the context that decides between division and a regular expression interact.", "anchors": ["src/jsiLexer.c: yylex, Jsi_LexerGet, Jsi_LexerUnget, do_string, do_sregex, do_word, do_sign, eat_mcomment"]}
{"id": "C56", "title": "Every text can be read", "statement": "Whatever the program text, the reader comes to an end: it reaches the end of the text, reports an error, or meets a character the parser takes for the end; there are at most as many tokens as characters, and its push-back buffer never overflows.", "quantifier": "every byte sequence", "why_tests_cant": "Termination and memory safety for all inputs.", "anchors": ["src/jsiLexer.c: yylex, lexer_getchar, lexer_unget"]}
{"id": "C57", "title": "String literals", "statement": "A text that begins with a quote is read as the string v exactly if it continues with an escaped spelling of v and the same quote; the literal that JSON.stringify prints for a text reads back as that text. (A backslash at the end of a line does not continue the string, and x41 after a backslash is not an escape: shown as refuted.)", "quantifier": "every text and every quote character", "why_tests_cant": "All escape sequences in all positions.", "anchors": ["src/jsiLexer.c: do_string", "src/jsiUtils.c: jsiValueGetString"]}
{"id": "C58", "title": "Numbers as text", "statement": "Text that writes a decimal number (with blanks before it) is read as the double nearest to it, ties to even; Number() of it is that double, and not a number if other text follows. An integer from -2^63 to 2^63 prints all its digits; any other normal number prints a decimal of at most p significant digits such that no p-digit decimal is nearer. With 17 digits every normal double but -0 is read back from its text unchanged; a decimal of at most p <= 15 digits survives reading and printing. (With the default of 15 digits, and with the setting documented as the maximum, distinct doubles print alike; -0 prints 0, subnormal numbers print undefined: shown as refuted.)", "quantifier": "every double, every decimal text of any length, every precision setting", "why_tests_cant": "2^64 doubles and unbounded texts; correct rounding fails on rare inputs only.", "anchors": ["src/jsiNumber.c: Jsi_NumberDtoA, Jsi_NumberIsInteger, Jsi_NumberToString", "src/jsiValue.c: Jsi_ValueToString, Jsi_ValueToNumberInt", "src/jsiUtils.c: jsiValueGetString", "src/jsiJSON.c: jsonGen1Value"]}
{"id": "C59", "title": "toFixed and toExponential", "statement": "x.toFixed(n) writes a decimal with exactly n fractional digits, and no such decimal is nearer to x; x.toExponential(n) writes one digit, n fractional digits and an exponent, and no such decimal is nearer. (toPrecision does not print significant digits; results longer than the 100 character buffer are cut: shown as refuted.)", "quantifier": "every finite double and every number of digits that fits the buffer", "why_tests_cant": "All doubles.", "anchors": ["src/jsiNumber.c: NumberToFixedCmd, NumberToExponentialCmd, NumberToPrecisionCmd"]}
{"id": "C60", "title": "A program with functions means what the language says", "statement": "Running the code generated for a program with functions, closures, objects, method calls, new, this and prototypes gives the value (or the error, or the endless run) and the memory that a definitional interpreter working directly on the syntax tree gives: lexical scope, fresh variables per call, missing arguments undefined, this bound to the receiver or the global object, own properties before inherited ones. The code never jumps out of its function nor pops an empty stack. (Where jsish's meaning departs from JavaScript's - arrow functions' this and var, var without a value, a local with a parameter's name - the interpreter says so and examples show it.)", "quantifier": "every program in the modelled syntax that does not call an arrow function as a method or with new; every depth of recursion; every system of primitive values and operators", "why_tests_cant": "Infinitely many programs and call histories.", "anchors": ["src/parser.y", "src/jsiEval.c: jsiEvalCodeSub, jsiEvalFunction, jsiFunctionSubCall, jsiPushVar, jsiPushFunc, jsiEvalSubscript", "src/jsiProto.c: jsi_FuncCallSub, jsi_SharedArgs", "src/jsiFunc.c: jsi_InitLocalVar"]}
{"id": "C61", "title": "Operands are evaluated in JavaScript's order unless a later operand changes a variable", "statement": "Arguments, operands and receivers are evaluated left to right and each keeps the value it had then, provided no operand is a bare variable that a later operand of the same operator, call, literal or assignment can assign (directly or through a function that is called). Without the proviso it is false: f(x, x = 2) passes 2 twice.", "quantifier": "every program that meets the proviso, a condition that can be read off its text", "why_tests_cant": "All programs.", "anchors": ["src/jsiEval.c: jsiVarDeref, jsiPushVar, jsiEvalFunction"]}
{"id": "C62", "title": "Variables captured by closures are private", "statement": "A variable of a finished or running call that is visible only to functions which do not assign it keeps its value whatever scripts are evaluated afterwards; and no script can add a variable to a call's scope.", "quantifier": "every history of scripts (without arrow functions) before and after", "why_tests_cant": "All attackers: any later script.", "anchors": ["src/jsiEval.c: jsiPushVar, jsiPushFunc", "src/jsiValue.c: jsi_ScopeChainObjLookupUni, jsi_ScopeChainDupNext"]}
{"id": "C63", "title": "Programs without arrow functions have a definite meaning", "statement": "No program without arrow functions reaches a situation whose outcome depends on leftovers of earlier calls (a stale receiver) or leaves the interpreter's tables.", "quantifier": "every program without arrow functions, every run", "why_tests_cant": "All programs and schedules of calls.", "anchors": ["src/jsiEval.c: jsiEvalFunction, OP_CHTHIS, _jsi_THISIDX"]}
{"id": "C64", "title": "maxDepth makes recursion end", "statement": "With interp.maxDepth > 0 a program without loops ends, with a value or an error, however its functions call each other.", "quantifier": "every program without loops and arrow functions, every positive limit", "why_tests_cant": "Termination over all programs.", "anchors": ["src/jsiEval.c: jsiEvalCodeSub (maxDepth)"]}
{"id": "C65", "title": "Prototype chains are finite and fixed", "statement": "In scripts that do not call Object.setPrototypeOf no object ever inherits from itself, so property lookup always ends; x instanceof F holds exactly if x inherits from F's prototype; and no script changes what an existing object inherits from, what a function's prototype is, or the answer of instanceof on existing objects. One Object.setPrototypeOf(o, p) keeps chains finite exactly as long as p does not already inherit from o.", "quantifier": "every history of scripts, every object and function", "why_tests_cant": "All histories.", "anchors": ["src/jsiValue.c: jsi_ValueLookupBase, Jsi_ValueInstanceOf", "src/jsiEval.c: jsi_ValueObjKeyAssign, jsiPushFunc, jsiFunctionSubCall"]}
{"id": "C66", "title": "new makes an instance", "statement": "new F(...) evaluates to an object, whatever F returns; if F returns no value the result is a new object and is an instance of F.", "quantifier": "every function, arguments, earlier history", "why_tests_cant": "All functions and histories.", "anchors": ["src/jsiEval.c: jsiFunctionSubCall"]}
{"id": "C67", "title": "Scripts only hold valid references", "statement": "Every reference that a variable or property holds is to an existing object, and never to the scope object of a call.", "quantifier": "every history of scripts", "why_tests_cant": "All histories.", "anchors": ["src/jsiEval.c", "src/jsiProto.c: jsi_FuncCallSub"]}
{"id": "C68", "title": "format does what its format string says", "statement": "format(text, args...) replaces each field of the text by the argument it stands for, printed and padded as the field says, copies everything else unchanged, ignores surplus arguments, and reports an error exactly if an argument is missing or of the wrong kind or the conversion is unknown; it always ends, and writes only inside its buffers, provided fields have at most 70 flags and widths and precisions are below 2^30 (ASCII formats of at most 70 bytes without ten-digit numbers are always safe).", "quantifier": "every format string, every argument list", "why_tests_cant": "All texts and arguments.", "anchors": ["src/jsiFormat.c: Jsi_FormatString"]}
{"id": "C69", "title": "Bitwise and shift operators", "statement": "&, |, ^ of numbers from 0 to 2^31, & with one such operand and any other, ~, <<, >>, >>> of numbers in the int range by any count give exactly what ECMAScript says (fractions are cut off); non-negative integers below 2^53 keep all their bits under &, |, ^.", "quantifier": "every pair of doubles in these ranges", "why_tests_cant": "All pairs of 64-bit doubles.", "anchors": ["src/jsiEval.c: common_bitwise_opr, OP_SHF, OP_BNOT", "src/jsiValue.c: jsi_ValueToOInt32, Jsi_ValueToNumberInt"]}
{"id": "C70", "title": "replace substitutes the matches and nothing else", "statement": "s.replace(/re/g, text) keeps the text between the successive matches and puts in place of each match the replacement string with $1..$9, $&, $$, $' filled in from that match; with a function it calls the function exactly once per match, in order, with the match, the groups and the offset; without g, or with a string as pattern, only the first match is replaced. It always ends and never reads or writes out of bounds, for any expression. The exact results need an expression that does not match the empty string and texts without NUL bytes. (Empty matches stop g; $` is the text since the last match; a $ at the end adds a NUL; with a string pattern the function gets the whole source: shown as refuted.)", "quantifier": "every text, replacement string or function with any effects, and every behaviour of the regular expression library that reports positions in the text", "why_tests_cant": "All texts, expressions and replacement functions.", "anchors": ["src/jsiString.c: StringReplaceCmd", "src/jsiRegexp.c: Jsi_RegExpNew"]}
{"id": "C71", "title": "match, exec, search and test report the matches", "statement": "s.match(/re/g) is null if nothing matches and otherwise the list of all successive matches; without g it is the first match followed by its groups (if all took part and none has the place of the one before); search is the offset of the first match or -1; test says whether there is one; calling exec of an expression with g and without groups until it gives null lists all matches, and each call leaves lastIndex behind the match. (Groups that took no part, or have the place of the whole match, are left out of the result; exec with groups returns later matches too and sets lastIndex wrongly; expressions with the same text share their position; a negative lastIndex reads in front of the string: shown as refuted.)", "quantifier": "every text without NUL bytes, every expression that does not match the empty string", "why_tests_cant": "All texts and expressions.", "anchors": ["src/jsiString.c: StringMatchCmd, StringSearchCmd", "src/jsiRegexp.c: jsi_RegExpMatches, RegexpExecCmd, RegexpTestCmd"]}
{"id": "C72", "title": "Array methods call the function once per element, whatever it does", "statement": "map, filter, reduce and reduceRight go through the positions the array had at the start, forEach, find, findIndex, some and every up to its present end; each calls the function exactly once, in order, for every position that holds an element when its turn comes, an error ends the method, every method ends, and nothing outside the array's block is read, even if the function changes the array meanwhile. Departures: forEach visits elements appended meanwhile and returns the value of the last call; assigning the function's parameter changes the element; filter keeps the returned value and find gives undefined if the function removed the element; every of an empty array is false.", "quantifier": "every array, every function with any effects on the array and anything else", "why_tests_cant": "All arrays and all functions, including those that change the array during the walk.", "anchors": ["src/jsiArray.c: jsi_ArrayMapCmd, jsi_ArrayFilterCmd, jsi_ArrayForeachCmd, jsi_ArrayFindSubCmd, jsi_ArrayReduceSubCmd", "src/jsiFunc.c: Jsi_FunctionInvoke", "src/jsiProto.c: jsi_SharedArgs"]}
{"id": "C73", "title": "A frozen object stays as it is", "statement": "After Object.freeze(o, true, false) no later operation of a script changes the value of a property of o, removes one or adds one, as long as o is not given to Object.freeze again, whatever else happens to other objects (histories without Object.assign and Object.values; with Object.assign too if nothing is frozen or thawed afterwards). An object frozen in any way keeps exactly the names it has; deleting, adding and, without modifyok, assigning a property is refused with an error and changes nothing; with the read check reading a property that is not there is an error; thawing restores everything. (The array of Object.values and copies by Object.assign share the values and can be used to change a frozen object; freezing in two steps leaves new properties open to ++; the mark goes along with copies of a value; elements of a frozen array can be assigned: shown as refuted.)", "quantifier": "every history of object operations before and after the freeze, all values and operators", "why_tests_cant": "All histories.", "anchors": ["src/jsiProto.c: ObjectFreezeCmd", "src/jsiValue.c: jsi_ObjValInsert, jsi_ObjSetFlag, jsi_ValueSubscript", "src/jsiEval.c: OP_DELETE, OP_INC, jsi_ValueObjKeyAssign, jsi_ObjArraySetDup"]}
{"id": "C74", "title": "Properties and prototypes", "statement": "A property reads as that of the first object, going from the object up its prototypes, that has it, and as undefined if none has, except that length, if none has it, is the number of elements of an array and of own properties of another object; assigning, updating or deleting a property, assigning a variable or an array element, Object.create, Object.assign, Object.values and Object.setPrototypeOf change exactly what they name and nothing else, or are refused and change nothing; without Object.assign and Object.values no two names ever share a value; without Object.setPrototypeOf every read ends. (o.a++ on an inherited property changes the prototype; Object.assign shares values, so that ++ on the source changes the copy; setPrototypeOf to an empty object takes its prototype instead; setPrototypeOf can close a cycle on which reads never end: shown as refuted.)", "quantifier": "every history of object operations", "why_tests_cant": "All histories, all prototype chains.", "anchors": ["src/jsiValue.c: jsi_ValueLookupBase, jsi_ValueSubscript, jsi_ObjValInsert", "src/jsiEval.c: jsiEvalSubscript, jsi_ValueObjKeyAssign, OP_DELETE, OP_INC, jsiValueAssign", "src/jsiProto.c: ObjectAssignCmd, ObjectCreateCmd, ObjectValuesCmd, jsi_SetPrototypeOfCmd", "src/jsiObj.c: jsi_TreeObjSetValue, Jsi_ObjGetValues", "src/jsiCode.c: opassign"]}
{"id": "C75", "title": "for-in and Object.keys", "statement": "Object.keys(o), and the list for-in goes through, are the names of o in ascending order, then those it inherits, each once. Whatever the body of a for-in loop does, the names visited are some of those at the start, in that order, each at most once and each still there when visited; a name the body never removes is visited unless the loop is left; the loop ends if the body does not set prototypes; hasOwnProperty says whether the object itself has the name. (Object.keys lists inherited names too, unlike ECMAScript: shown as refuted.)", "quantifier": "every object in every state a history reaches, every loop body with any effects", "why_tests_cant": "All objects and all bodies, including those that change the object during the loop.", "anchors": ["src/jsiValue.c: Jsi_IterGetKeys, Jsi_ValueGetKeys, Jsi_ValueKeyPresent", "src/jsiEval.c: OP_KEY, OP_NEXT", "src/jsiProto.c: ObjectKeysCmd, jsi_HasOwnPropertyCmd"]}
{"id": "C76", "title": "Typed functions get the arguments their header allows", "statement": "A script function with typed parameters, called with the default options, runs exactly if the number of arguments fits (all parameters before the first one with a default, no more than there are unless the last is ...) and every argument is of one of the types written or of the type of the default, where undefined has to be named, also for a parameter without a type; each parameter is then the argument, or a value of its own with the default, and the call gives what the body returns if the type after the header allows it (undefined: void) and is an error otherwise; a call that does not fit is an error before anything runs. new f() does not check the returned value. With noCheck or noError set every call runs. A list of types written as text is read as those types, and shown as a text that is read as the same types. (After typeWarnMax mismatches the checks go on although the option says they are disabled: shown as refuted.)", "quantifier": "every header, every function body, every list of arguments, every setting of the options", "why_tests_cant": "All headers, all combinations of types, all argument lists.", "anchors": ["src/jsiFunc.c: jsi_ArgTypeCheck, jsi_RunFuncCallCheck, jsi_typeGet, jsi_typeName", "src/jsiProto.c: jsi_SharedArgs, jsi_FuncCallSub", "src/jsiPstate.c: jsi_argInsert", "src/parser.y: argtype, argdefault", "src/jsiUtils.c: jsi_TypeMismatch"]}
{"id": "C77", "title": "call, apply and bind", "statement": "f.call(t, a...), f.apply(t, [a...]) and a call of f as a method of the object t with arguments a... do the same, for null and undefined with the top object, and f.apply(t) is f.call(t); every direct call of a function made by f.bind(t, b...) does what f does with this t (that of the call if t is null) and the arguments b... followed by those of the call, also through several binds once each of the functions has been called. Departures, shown as refuted: a function just made by bind cannot be used with apply, as a callback or for another bind; bind(undefined) gives an undefined this; assigning a parameter changes the bound argument for later calls, and the array given to apply.", "quantifier": "every function, every state, every list of arguments, any depth of bind", "why_tests_cant": "All functions and all histories of calls.", "anchors": ["src/jsiProto.c: jsi_FuncBindCall, jsi_FunctionBindCmd, Jsi_FunctionCall, Jsi_FunctionApply, jsi_FuncCallSub", "src/jsiFunc.c: jsi_FunctionInvoke", "src/jsiEval.c: jsiEvalFunction"]}
{"id": "C78", "title": "Names of options", "statement": "In the tables of options a member name stands for the option with this name, or for the only option whose name starts with it; a start of several names (none of them equal to it) and a name that starts none are refused. Departure, shown as refuted: the exact name of an option that comes after two options with longer names of the same start is refused as ambiguous.", "quantifier": "every table of options, every name", "why_tests_cant": "All tables and all names.", "anchors": ["src/jsiOptions.c: Jsi_OptionsFind"]}
{"id": "C79", "title": "Setting options", "statement": "A call of conf with an object sets each option a member stands for: it succeeds if every member stands for an option that may be set now and takes the value (booleans for bool, numbers whose integer part fits for integers, short enough strings for character buffers, the right class for values and functions, names for enumerations), then the option reads as the value of the last such member; otherwise it fails, and the member that is refused does not change its option; options that no member stands for stay as they are; an object made with its options has all the required ones. Departures, shown as refuted: the members before an error stay set; a NaN that is refused for a number is stored; NaN is accepted for an 8-byte integer as its smallest value.", "quantifier": "every laid-out table of options, every record, every object of members, nested structures included for the frame", "why_tests_cant": "All tables, all records and all sequences of members.", "anchors": ["src/jsiOptions.c: jsi_SetOption_, Jsi_OptionsProcess, Jsi_OptionsConf, jsi_GetOption, Jsi_OptionsFree, jsi_ValueToSubopt"]}
{"id": "C80", "title": "Protected options", "statement": "No history of calls of conf, failing or not, changes an option that is read-only, one that is only for the start, or (in a safe interpreter) one that is locked for it, at any depth of structures, as long as no member sets a structure to null. Departures, shown as refuted: a structure set to null resets all its options, the protected ones too; in the elements of an array the options for the start are set.", "quantifier": "every history of conf calls, every table of options, every nesting of structures", "why_tests_cant": "An invariant over all histories and all depths.", "anchors": ["src/jsiOptions.c: Jsi_OptionsProcess, jsi_ValueToSubopt, ValueToCArray, jsi_SetOption_", "src/jsiInterp.c: InterpOptions"]}
{"id": "C81", "title": "Enumerations and sets", "statement": "An enumeration option takes a name of its table and reads as this name. A set of names (with at most 31 names) changes under \"a,!b\" or [\"a\",\"!b\"] exactly in the named elements, the last mention of a name deciding, is replaced under \"=a,b\", is left alone with an error if a piece names nothing, and (four bytes wide) reads as the array of its elements in the order of the table. Departures, shown as refuted: {name:bool} changes only the first eight names of a wider set, without an error; an empty array takes out everything; a set of one byte reads its neighbours; the 32nd name sets the sign; a negative enumeration reads as the first name.", "quantifier": "every table of names, every set, every string and array", "why_tests_cant": "All subsets and all sequences of pieces.", "anchors": ["src/jsiOptions.c: jsi_ValueToEnum, jsi_EnumToValue, jsi_ValueToBitset, jsi_BitsetToValue", "src/jsiUtils.c: Jsi_GetIndex"]}
{"id": "C82", "title": "Matching a regular expression", "statement": "A regular expression without back references reports a match in a text exactly when some piece of the text is matched by the pattern, as defined by the grammar of patterns alone: characters, brackets, classes, alternatives, sequences, *, +, ?, {m}, {m,}, {m,n}, and the assertions ^ $ \\b \\B \\< \\>. Conditions, each of which is needed: no character class is repeated by a count (^\\d{2}$ accepts \"ab\"), a count has at most one repetition around it (^((a{2})?b)*$ accepts \"ab\"), no count is {0}, and assertions do not stand in a repeated part or in the first of two alternatives that can be empty (x(^|)y does not find \"xy\").", "quantifier": "every pattern of that kind, every text, all flags and locales", "why_tests_cant": "Patterns are trees of any size and texts are of any length.", "anchors": ["regex/regcomp.c: tre_compute_nfl, tre_match_empty, tre_set_union, tre_make_trans, tre_ast_to_tnfa, regcomp", "regex/regexec.c: tre_tnfa_run_parallel, regexec"]}
{"id": "C83", "title": "Repetition counts", "statement": "x{m,n} matches what m to n copies of x in a row match: writing the counts of a pattern out changes neither what any part of the text is matched by (unless a character class is repeated), nor lets two characters of the pattern share a state of the automaton (unless counts are nested more than one repetition deep, or a count is {0}).", "quantifier": "every pattern, every nesting of counts and repetitions, every text", "why_tests_cant": "The numbering of copies has to stay apart for every shape of the pattern.", "anchors": ["regex/regcomp.c: tre_copy_ast, tre_expand_ast"]}
{"id": "C84", "title": "Bracket expressions", "statement": "A bracket expression, with characters, ranges and classes in any order and number, matches exactly the characters it lists, a negated one exactly those it does not list, and ignoring case also (or not) those whose other case is listed, whatever follows it in the pattern. (This takes for granted that every lower case letter has an upper case, and the reverse; otherwise letters of a range may be missed: shown as refuted.)", "quantifier": "every list of terms of the bracket grammar, both negations, every flag, every character, every locale with paired cases", "why_tests_cant": "Ranges overlap and nest in every way, and negation sorts and complements them.", "anchors": ["regex/regcomp.c: parse_bracket, parse_bracket_terms, add_icase_literals, tre_compare_lit, tre_new_lit"]}
{"id": "C85", "title": "Reading patterns", "statement": "The text of a pattern made of characters, escapes, dots, assertions, brackets, groups, alternatives and repetitions, nested in any way, is accepted, and searching for it finds something exactly when some piece of the text is one that the pattern, read by the usual rules of grouping and precedence, stands for (within the limits of C82); every other text is refused or read in finitely many steps; the counts of an accepted pattern lie between 0 and 255 and are in order; an unclosed group and counts the wrong way round are refused. (An escaped character beyond ASCII is refused and an escaped letter is not folded: shown as refuted.)", "quantifier": "every pattern of the grammar, every text, every flag; every list of characters for the refusals and for termination", "why_tests_cant": "Groups and alternatives nest without bound.", "anchors": ["regex/regcomp.c: tre_parse, parse_atom, parse_dup, parse_dup_count, tre_expand_macro, hexval, marksub, tre_ast_new_catenation, tre_ast_new_union", "regex/regexec.c: regexec"]}
