# Design

A machine-checked model, in Coq 8.16.1, of parts of librep (C sources under
`/repo/src`, Lisp library under `/repo/lisp/rep`).  The code is read as text;
nothing is built or run.

## Layout

For each modelled part `X` there are these files in `rocq/theories/`:

* `X_Model.v`   - executable Gallina transcription, no proofs.  Every definition
  has a comment with the file and lines it models and the simplifications made.
* `X_Spec.v`    - an independent specification, written without the helpers of
  the model (plain lists, functions, `Z`, ...).
* `X_Proofs.v` and other files - lemmas.
* `X_Props.v`   - only the theorems named in `MANIFEST.json`, each closed by
  `exact lemma`, with `Print Assumptions` and concrete `Example`s showing that the
  hypotheses can be met.

Naming: a theorem that proves only part of its property ends in `_partial`.  A
theorem `..._refuted` exhibits (by computation in the faithful model) a case in
which the English property is false for the code; it is a finding about the code.

## Machine model

The target is the LP64 build with GMP: `repv`, `long` and `long long` are 64
bits, `int` is 32 bits, `char` is 8 bits and signed, fixnums have 62 bits.
Unsigned machine arithmetic wraps explicitly in the model (`mod 2^64`).  Lisp
numbers backed by GMP are mathematical integers (`Z`), i.e. GMP itself is trusted.
Undefined behaviour is a distinct outcome or, where gcc's behaviour is the
conventional two's complement wrap, the comment at the definition says so.  C
loops without an evident measure take a step budget (`fuel`); the theorems
say which budget suffices or hold for every budget that does.

## Trusted base

* Coq's kernel (and `vm_compute`).
* What `Print Assumptions` lists under each theorem in the `*_Props.v` files.
  For every theorem named in `MANIFEST.json` it prints `Closed under the global
  context`: no axiom is used, of the standard library or otherwise.  (Loading
  `Lia`/`ZArith` makes the ssreflect plugin's `Under_rel` module type part of the
  environment; no theorem depends on it.)  The list is at the end of this file.
* The transcription of the source text into the `*_Model.v` files.  The parts of
  the code not transcribed are listed per module below and are not covered.
* The reading of the English properties as the statements in `*_Props.v` and the
  definitions of `*_Spec.v`.

## Plan, property by property

| id | model | proof |
|----|-------|-------|
| C01 C02 | `tables.c` chains and bucket array, hash and equality as parameters | refinement to a finite map by an invariant over every operation history |
| C03 C31 | Lisp values as finite trees, `equal`, `equal-hash` with the depth cut-off | structural induction; counterexample where number comparison is truncated to `int` |
| C04 | 1024-byte page as an offset table and byte areas | invariant + refinement to association list |
| C05 C06 C07 | page array + split bitmap, `makroom` loop, write log | invariant on trie addressing; crash = prefix of the write log |
| C08 C09 | cons heap / vector with in-place update | refinement to lists |
| C10 | the merge sort of `sort.jl` | induction, permutation + order + stability |
| C11 | bit-accumulating encoder and decoder over bytes | round trip by induction over 3-byte groups |
| C12 | `rep_string_print` and `read_str`/`rep_stream_read_esc` over bytes | round trip by induction |
| C13-C17 | numbers of `numbers.c` as fixnum / bignum / rational with 64-bit machine steps | equality with `Z`/`Q` operations; refutations at overflow points |
| C18 | delta list of `timers.c` | absolute times = prefix sums; invariant over histories |
| C19 | doubly linked queues of `continuations.c` in a heap of thread records | refinement of the pointer operations to two lists |
| C20 C21 C22 | interleaving semantics: one step per atomic (forbid/permit) section | invariants over all interleavings; refutations of timeout behaviour |
| C23 | barrier stacks with addresses | equality with path in the tree of extents |
| C24 C38 | command language with bind/assign/throw over the special-binding stack; depth counter | induction on executions |
| C39 C41 | `regexp.c`: compiler to byte code with offsets, backtracking matcher with match data and nesting counter; regular expressions as a syntax tree with a denotation | the code emitted satisfies a relation to the tree (any layout), the matcher run on such code in continuation style follows the ordered list of ways; induction on the tree |
| C40 C43 C44 | `quote-regexp`, `string-replace`, `string-split`, `quote-url` over that matcher | the tree a quoted string stands for; induction on the rest of the string |
| C42 | the list of cached programs over a heap of strings | invariant over all operation sequences |
| C25 | state machine of `bind_lambda_list_1` | equality with declarative binding relation |
| C26 | expander of `backquote.jl` + evaluator of the list-building subset | induction on templates |
| C27 | stack machine for the instructions the optimiser touches | each rewrite is a simulation; refutations for wrong ones |
| C28 | assembler of `assembler.jl` | decoder round trip |
| C29 | cons heap | separation-style frame lemmas |
| C30 | byte strings, the skip table | induction over characters |
| C32 | MD5 with buffering of `md5.c` | compression function equal to RFC 1321's, chunking homomorphism |
| C33 C34 | marking with explicit graph, sweep, weak list, guardians | reachability invariant |
| C35 | reader and printer of `lisp.c` | round trip by induction over data |
| C36 | `firstkey`/`nextkey` over the page file | enumeration order from the trie invariant |
| C37 | `sdbm-delete` over the same file | refuted: the key passed is never the stored one |
| C45 | string output streams over a heap of strings with their allocated sizes | invariant of all streams at once; induction on the program |
| C46 | string input streams, `read-line`'s growing buffer over strings and files, `copy-stream` | remaining characters; induction on the passes |
| C47 | `format`'s parser and `string_out` | templates as tokens, meaning as a relation; induction on the template |
| C48 | worlds of structures, nodes and names with an explicit cache; freed objects are a distinct outcome | invariant: every line of the cache is the meaning of its symbol, given as an inductive relation; induction on the program |
| C49 | the same | the search meets only modules below; transfer of meanings between universes |
| C50 | `delq` on a cons heap | list segments |
| C51 | the core of the compiler (`basic.jl`, `bindings.jl`, `inline.jl`, `rep.jl`) with labels and cells, slot allocation of `lap.jl`, the machine of `lispmach.h`, the interpreter of `lisp.c` | forward simulation by induction on fuel and size, an injection from interpreter cells to heap cells and slots; converse by determinism |
| C52 | the same, stacks checked against their declared sizes | from the simulation: the machine reaches an agreed outcome, which is not being stuck |
| C53 | `rep_expand_file_name` with its buffer and high-water mark, `expand-file-name`, `local-file-name`, the tilde handler | the loop as a stack machine on components; walks in abstract trees; the tree in which everything exists separates simple names |
| C54 | the four functions on parts of names, `rep_user_home_directory` | case analysis on the last slash |
| C55 | `canonical-file-name` with realpath as a parameter; dispatch of file operations on the tilde handler | from C53 and the specification of realpath |
| C56 | symbols with their next slots and name strings, obarrays as buckets, `find-symbol`, `intern`, `intern-symbol`, `unintern`, `apropos` | invariant: every bucket is the head of a chain of distinct symbols of that hash; refinement of sets step by step |
| C57 | property lists on a heap of cells, `get`, `put`, `setplist`, `symbol-plist` | key and value cells of a list are different cells; newest value by induction over the calls |
| C58 | `make-keyword`, `gensym` with its counter | from C56; decimal printing is injective |
| C59 | `fix-time`, `time-later-p`, `rep_GET_TIME` with unsigned long, `time.jl` | division with remainder |
| C60 | the day count, timestamp and weekday of `parse-date` | induction over days and over years; the formula for months by cases |
| C61 | `parse-date` with its regexps run by the modelled engine | the regexps as syntax trees, greedy matches of blanks and digits by the engine's correctness theorem, step by step over the grammar |
| C62 | `aset`, `aref`, `length`, `make-vector`, `vector`, `make-string`, `copy-sequence`, `elt` with the arithmetic of int | a heap invariant; induction over histories of stores |
| C63 | `substring`, `concat`, `mapconcat` | characters as a relation between values and lists; induction over arguments |
| C64 | `string-head-eq`, `string-equal`, `string-lessp` on zero-terminated bytes with any `toupper` | the loops are dictionary order of keys up to the first zero |
| C65 | `complete-string`, `translate-string`, case tables and predicates | loop invariant: the first match and the longest beginning so far |
| C66 | the reader of `xml/reader.jl` on the rest of the input; entities through the modelled regexp engine | a grammar relates items and texts; mutual induction; one budget for all parts of a text |
| C67 | `xml/printer.jl` | what is printed is in the grammar of C66 |
| C68 | `call-with-exception-handler`, `raise-exception` and the Lisp functions over them, as functions on states | natural semantics in the specification; equivalence by mutual induction; laws about unwinding through any forms; a recording world for cleanups |
| C69 | the code that the compiler emits, the instructions and the unwinding of the binding stack | forward simulation by mutual induction at every address and stack; determinism for the converse |
| C70 | the hook functions on a heap of cons cells, with hook functions as arbitrary lists of changes | the place of a run is a chain of removed cells followed by a tail of the hook; invariance under every change by mutual induction over nested runs |
| C71 | macroexpand with its history on a heap of cells with roots; macro functions are programs | invariant of the history: each entry is the expansion its cells had when they were remembered, and all its cells are still in use |
| C72 | memoize over a hash table, the function being any program that may call itself | simulation: each entry of the table is the function's answer |
| C73 | the table of origins with the guardian on a heap of cells, and the collector's choice left open | invariant: items belong to watched cells that are in use; cells the program holds are never given up; induction over all histories |
| C74 | the macros as functions on forms and the evaluator with a store, closures, gensym and exits | a big-step meaning for each construct, proved equivalent to evaluating its expansion; for the hidden symbol an invariant of all evaluations (its place is reachable only through it) |
| C75 | a heap of vectors, datums and types with the functions of datums.c and records.jl; the constructor of the macro as a form that is evaluated | a machine with numbered objects and field maps; all programs give equal observations (simulation) |
| C76 | nodes in a heap, changed in place | sets of words with views; simulation, with the invariant that every node has one path from one root |
| C77 | forms with scopes, macro calls and global functions over arbitrary values and states; the folder and the constant substitution as functions on forms | evaluation of the compiled form equals evaluation of the form, for every world in which the listed functions are pure |
| C78 | the loops over directories and suffixes with the variable that is not reset; the list served while it is being changed | iff characterisation of the result by induction on the path; multiset accounting by induction on the rounds |
| C79 | programs of forms over a world of structures, names and a trace of loads; fuel for the nesting | invariant on the trace by strong induction on fuel; termination by a lexicographic measure (unnamed modules, structure forms left, features left, forms left) |
| C80 | objects by index with their base and methods; evaluator that passes messages on with #:self; store of captured variables | agreement with a big-step relation of single inheritance in both directions by induction on fuel and on derivations |
| C81 | doubles as mantissa and exponent: mpq_get_d truncating, + 0.5 rounding to nearest even | integer arithmetic with error bounds of the two roundings |
| C82 | list of byte strings; string-looking-at of the regexp model with quote-regexp; start-up and child environment | the quoted name matches exactly the entries of that name (from the theorems of C39 and C40 about quote-regexp), then induction over the list |
| C83 | regexp model with the shared match data; decoding loop; loop over parameters | the engine's answer for the two regexps computed for all strings from C39's theorem, then induction over the encoding and over the parameters |
| C84 | file system as a map from names to nodes; the text processed as the C code does, rpath and remaining name | rpath always spells a canonical path; the loop against a relation of resolved names without the kernel's directory checks, which is functional and which the kernel's resolution implies |
| C85 | symbols' flags, special values, dynamic bindings, structures and their special environments; programs as interaction trees | induction over the program with a frame lemma per operation; confidentiality by a relation of two runs |
| C86 | type table, little-endian memory as a function, marshalling by recursion on ids, C types as trees with the ABI layout | induction on ids and fields; a written value is characterised by all memories that agree where it lies |
| C87 | argument list of string objects with identities, strncmp on bytes, deletion by identity, parse-options as a relation with the code called as a parameter | induction on the items of the line; removal of one item keeps the line clear; the specification determines answers and rest uniquely |
| C88 | the functions over the models of string-split and string-match with the regexp actually used | the theorems on quoted regexps and splitting (C40, C43) give the labels; induction on labels; lists of labels are unique |
| C89 | a state machine with a log of events; the kernel, the callbacks and the other threads are arbitrary functions of the log | invariant over reachable states; induction on the descriptors left and on the chunks of time |
| C90 | the reader with the kinds of its errors (premature end or wrong syntax), and the handler as a loop over pending data with reentrant deliveries given by an arbitrary function | every proper beginning of a printed message reads as premature end (mutual induction over data); invariant: arrived = dispatched ++ kept |
| C91 | the tables of calls and sockets of one program with arbitrary doings; client, two channels and server with calls at work | the calls noted are a permutation of those waiting and those called; conservation of ids and of answers over all places where a call can be |
| C92 | the bytes written by both sides; the client's filter and callbacks with their pending output; the loops of get and put | the state of the client is a function of the bytes that have arrived (induction on the pieces); records by splitting what has arrived at record ends |
| C93 | the cache of one session with a clock, the server's listings and arbitrary changes of them | every entry has an origin in the history, preserved by all events |
| C94 | cells of a heap; the two pointers of the loop | after j rounds the pointers stand at places j and 2j; they meet by the pigeonhole principle, and when they meet every later place repeats one already seen |
| C95 | the output filter with pending output; kinds of lines as a parameter | induction on the pieces; splitting of what has come at line ends |
| C96 | scanfile with fgets and strstr on bytes; the database as a list | induction on the parts of the source; first occurrence of the marks; a full buffer never changes |
| C97 | the backward scan over the text before the cursor | induction on the way in which balanced text is built, from its end |
| C98 | register on a list of cells; the loop over the printed string by positions | the loop equals a recursion on the string; strong induction for backslash and n; registrations by induction from the end |
| C99 | events of callers and of the thread in any order, with queues | invariant over all sequences of events; answers as a permutation of those of the serial run |
| C100 | the table of commands; the loop over lines with pending input, for any reader | induction on tables, on the lines of an entry and on entries |
| C101 | pending output and pieces to come; reading of lines; checking of words | induction on the pieces and on the words; what is pending and to come together is what is left of the output |
| C102 | the output function with pending text; names of a directory; links; letters of modes | induction on pieces with a unique decomposition into lines; induction on entries; all 4096 modes computed |
| C103 | the two functions over a table, loading of modules once, programs of autoloads, definitions and references | invariants by induction on programs from the end |
| C104 | the loops over any type of states, with calls that return, throw or leave | induction on sequences of calls, accumulators generalised |
| C105 | fgets with its buffer, the keys, names in quotes, required words, the loop over lines | induction on what lines say; unique decomposition into lines and words |

Whatever turns out false of the faithful model is recorded as a `_refuted`
theorem together with the largest positive version that holds.  In
`MANIFEST.json` a property is `proved` only if its whole statement holds of the
model under the hypotheses the statement itself names; it is `partial` as soon as
a `_refuted` theorem or an extra hypothesis limits it.

## What is modelled, and what is not

| module | modelled | not modelled |
|--------|----------|--------------|
| Numbers | `numbers.c`: promotion, + - * / mod quotient, gcd, logical operations, ash, comparison, min/max, exactness, integer parts, `rep_parse_number`, number printing of exact numbers | floats; GMP internals; random |
| Values | `values.c` `rep_value_cmp` and the per-type comparisons, `tables.c` hash functions | floats, circular values |
| Tables | `tables.c`: chains, growth, ref/set/unset/walk/size, weak tables after a collection | hash functions with side effects, int counter overflow |
| Lists, Queues, Ring, Sort | list functions of `lispcmds.c` on a heap of cells; `queues.jl`, `ring.jl`, `sort.jl` | interrupts, read-only dumped cells, datum wrappers, impure sort predicates |
| Base64 | `base64.jl` encoder and decoder | stream errors |
| Reader | `lisp.c` reader and printer, string and symbol printing, escapes | floats as numbers (kept as text), origin table, print-length/level |
| Sdbm | `sdbm.c`, `sdbm_pair.c`, `sdbm_hash.c`, key handling of `repsdbm.c`; every block write of a call | I/O errors other than the crash model, file locking, strings of 2 GB |
| Timers | `timers.c` chain, itimer, signal and event loop | timer memory management, callbacks changing the clock |
| Threads, Sync | queues of `continuations.c`; `mutex.jl`, `condition-variable.jl`, `message-port.jl` | saving and restoring the C stack, exit values |
| Barriers | barriers, call/cc, invocation, `continuation-callable-p` | stack copying, errors inside barrier functions |
| Fluids | `fluids.c`, special variables, VM binding stack, handlers, depth counter | restricted special environments, buffer-local values, re-entrant continuations |
| Params | `bind_lambda_list_1`, `compile-lambda-spec`, argument instructions, inlined lambdas | interrupts |
| Backquote | `backquote.jl` and the list functions in expansions | circular templates |
| Peephole | all 32 rewrites and the last pass of `peephole.jl`, a machine for the instructions they mention | the effects of other instructions (arbitrary functions) |
| Asm | `assembler.jl`, operand decoding of `lispmach.h`, disassembler stepping, stack word | effects of instructions |
| Md5 | `md5.c`, `rep-md5.c` | read errors |
| Utf8 | `utf8-string-length`, `utf8-substring` | unused parts of `utf8.c` |
| Gc | marking, roots as a given list, guardians, weak references, cons sweep, chain sweeps, string count | how roots are found, other free-list sweeps (by a chain sweep), dumping |
| Regexp | `regexp.c`: `rep_regcomp`, `rep_regexec2`, `rep_regmatch_string`, `regmatch`, `regrepeat`, `regnext` | `regerror` texts, `rep_regfree`, debugging output |
| Find | `find.c` except buffers, `regsub.c`, `regexp.jl` (string-replace, string-split), `quote-url.jl` | string->number on other than two hexadecimal digits, match data of buffers, save-match-data |
| Stream | `streams.c`: string streams, `write`, `read-char`, `peek-char`, `read-chars`, `read-line`, `copy-stream`, `format` | streams that are files (but for `read-line`), functions, buffers, processes; `%` with floats and rationals; overflow of int lengths; interrupts |
| Modules | `structures.c`: binding tables, reference cache, search of imports, the functions on structures and their sweep; `delq` on shared interfaces | loading of modules by name, header and body thunks, `%structures` edited directly, overflow of cache ages, reuse of freed addresses |
| Compile | compiler for constants, variables, setq, define, defun, instructions, calls, lambda, inlined lambda, funcall, progn, prog1, cond, case, while, let*, letrec; tail calls; stack accounting; slot or heap allocation; the instructions they use; the interpreter of the same forms | special variables, keyword parameters, catch, unwind-protect, condition-case, apply, mapc, macros, constant folding, imported and immutable bindings, mutation of conses, identity of functions, interrupts; peephole and assembler (own modules) |
| Files | `unix_files.c` 66-283, `files.c`: file names and dispatch of one-name operations, `tilde.jl`, `rep_user_home_directory` | remote and tar handlers, reading and writing of files, file objects, the operations themselves |
| Symbols | `symbols.c`: symbols, obarrays, keywords, gensym, property lists | value slots, collection of symbols, obarrays written to with aset, dumped cells, lists as properties |
| Dates | `misc.c` 243-306, `time.jl`, `date.jl` | current-time, current-time-string and strftime (the clock and the C library), the cons cells that fix-time writes to |
| Strings | `lispcmds.c` 454-475, 808-1171, 1585-1641; `values.c` 217-290, 594-608; `misc.c` 156-215, 412-522, 645-673; `string-util.jl` | the limit on the number of arguments of apply, rep_string_modified (see Find), make-closure and other users of vectors |
| Xml | `lisp/rep/xml/reader.jl` 44-188, `lisp/rep/xml/printer.jl` | the input and output streams themselves; the limit on the number of arguments of apply in read-string-item; what format makes of (nth 1 stream) |
| Control | `lisp/rep/lang/interpreter.jl` 411-493, `src/lispcmds.c` 1948-1991, `src/lisp.c` 2570-2586, `lisp/rep/vm/compiler/rep.jl` 395-409, 550-853, 1009-1017, the cited instructions of `src/lispmach.h` | closures, special variables, register variables, tail calls, interrupts, the debugger, %in-condition-case |
| Hooks | `src/lispcmds.c` 1902-1945 (with `delete`, `nconc`, `memq` of Lists), `lisp/rep/system.jl` 34-61 | arguments of hook functions, lists as functions, dynamic bindings of hook symbols, interrupts |
| Macros, Memo, Origins | `src/macros.c` 41-211, `lisp/rep/util/memoize.jl` 34-46 (with `src/tables.c` 346-438), `src/origin.c` 49-189 (with `src/values.c` 649-757) | ENVIRONMENT functions, autoloaded macros, closures as forms |
| Syntax | `lisp/rep/lang/interpreter.jl` 118-386 (let to prog2), with `src/lisp.c` 1136-1167, 1404-1455, 1547-1720, 1816-1945, 2036-2066, `src/lispcmds.c` 1173-1216, `src/symbols.c` 1126-1151 | let-fluids, with-object, setq-default; lambda lists with keywords (Params); special variables (Fluids) |
| Records | `lisp/rep/data/records.jl` 71-186, `src/datums.c` 36-43, 85-171 | printers and disclosers; datum_cmp |
| Trie | `lisp/rep/data/trie.jl` 41-103 | make-trie-from-file |
| Fold | `lisp/rep/vm/compiler/src.jl` 40-66, 94-109, `utils.jl` 334-357, `basic.jl` 142-175, `rep.jl` 39-55, 135-140 | the other source transformations; code generation (Compile) |
| Load | `lispcmds.c` 1217-1228, 1329-1530 (load), `files.c` 1476-1500, `files.jl` 56-64 | evaluation of the loaded forms, file handlers with errors, interrupts |
| Require | `structures.c` 642-777, 1067-1180, 1380-1464, `lispcmds.c` 1230-1290 | error handlers, `features` seen through opened structures, define-structures, autoload |
| Objects | `lisp/rep/data/objects.jl` 57-104, keyword binding of `src/lisp.c` 1292-1319 | documentation strings, bases that are not objects, bodies beyond the small language |
| Rounding | `numbers.c` 2237-2361, 2567-2584, 2661-2781, `lang/math.jl` 50-68 | float arguments, transcendental functions, random |
| Environ | `lisp/rep/system/environ.jl` 30-60, `src/unix_main.c` 943-951, `src/unix_processes.c` 528-551 | entries that are no strings, failing allocation |
| Cgi | `lisp/rep/www/cgi-get.jl` 36-81 | getenv of QUERY_STRING (see Environ), intern |
| Realpath | `src/realpath.c` 78-217 | permissions, other processes, what RESOLVED holds after an error, errno |
| Gaol | `src/symbols.c` 484-1352 (special variables), `src/structures.c` 1621-1639, `lisp/rep/vm/compiler/rep.jl` 273-289 | buffer-local values, constants, lexical bindings, file handlers of gaols, what the safe functions themselves do |
| Ffi | `src/ffi.c` 155-848, `src/numbers.c` 535-632 | the call itself (ffi_call), 32-bit float and long double, conversion of floats to integers, effects of conversions on memory, garbage collection of conversions (nothing marks them), loading of libraries |
| Options | `src/main.c` 76-157, `src/misc.c` 542-559, `src/lispcmds.c` 716-736, `lisp/rep/user.jl` 34-92, 104, 118 | what the called and loaded code does (a parameter), interrupts, the error handlers around parse-options, --check, --help and --version beyond leaving |
| Domain | `lisp/rep/net/domain-name.jl` 38-90 | effects of the function that is called, other than on the match data |
| Inputs | `src/unix_main.c` 260-321, 377-653; `src/misc.c` 323-340 | nested event loops, the hooks for embedders, redisplay, the close-on-exec flag |
| Rpc | `lisp/rep/net/rpc.jl` 229-293; `src/lisp.c` 297-1118 (kinds of errors) | what is done with a message, sockets, servants |
| Calls | `lisp/rep/net/rpc.jl` 123-128, 151-204, 256-293, 311-312, 325-340 | cache of sockets by address, proxies, synchronous waiting, global ids |
| Remote | `src/rep-remote.c` 97-187, 244-305, 420-520; `lisp/rep/io/file-handlers/remote/rep.jl` 66-100, 187-306, 331-378, 436-463, 564-599 | the server's file operations, login and passwords, cache of directories, sessions |
| Dircache | `lisp/rep/io/file-handlers/remote/rep.jl` 60-62, 380-434 (what is invalidated), 479-550, 601-613 | splitting of file names, symbolic links, steps of the reading (C92) |
| Position | `lisp/rep/util/misc.jl` 42-50, 66-79 | the rest of the file |
| Ftp | `lisp/rep/io/file-handlers/remote/ftp.jl` 106, 246-251, 300-375 | regular expressions for kinds of lines, sessions, files, directories |
| Repdoc | `src/repdoc.c` 38-77, 94-109 | gdbm, options, errors |
| Paren | `src/readline.c` 102-172 | completion, history, reading of lines, display |
| Xgettext | `lisp/rep/i18n/xgettext.jl` 48-54, 130-149 | scan of forms, headings, C mode |
| Proxy | `lisp/rep/threads/proxy.jl` 44-82 | scheduler, message ports (as queues), functions that do not return |
| Repl | `lisp/rep/util/repl.jl` 63-99, 109-128, 177-206 | reader (parameter), evaluation, the commands themselves, completion, interrupts |
| Ispell | `lisp/rep/util/ispell.jl` 75-88, 127-137, 159-175 | process management, dictionaries |
| Tar | `lisp/rep/io/file-handlers/tar.jl` 192-207, 239-272, 316-322, 333-342 | regular expression of lines, cache of listings, calls of tar, other operations |
| Autoload | `lisp/rep/util/autoloader.jl` 35-59, `src/structures.c` 1067-1108 (loading once only) | arguments of setters, errors of loading, bodies of modules that do more than define |
| Mapping | `src/lispcmds.c` 522-617, `lisp/rep/data.jl` 30-65 | functions that change the list, interrupts, circular lists |
| Libtool | `src/unix_dl.c` 200-213, 241-317 | opening of libraries, table of libraries, initialisation of modules |

## Assumptions of each theorem

`Print Assumptions` answers `Closed under the global context` for each of:

| property | file | theorems |
|----|----|----|
| C01 | `Tables_Props.v` | `C01_table_is_map`, `C01_incompatible_hash_refuted` |
| C02 | `Tables_Props.v` | `C02_size_and_walk`, `C02_walk_stops_on_error_refuted`, `C02_load_factor` |
| C03 | `Values_Props.v` | `C03_same_value_hash`, `C03_equal_hash_partial`, `C03_equal_hash_refuted`, `C03_hash_is_fixnum`, `C03_hash_positive_refuted` |
| C04 | `Sdbm_Props.v` | `C04_page_history`, `C04_page_split` |
| C05 | `Sdbm_Props.v` | `C05_history_partial`, `C05_defined_partial`, `C05_big_directory_refuted` |
| C06 | `Sdbm_Props.v` | `C06_single_write_partial`, `C06_damage_confined_partial`, `C06_crash_refuted` |
| C07 | `Sdbm_Props.v` | `C07_failed_store_partial`, `C07_failed_replace_refuted` |
| C08 | `Queues_Props.v` | `C08_queues_fifo`, `C08_list_is_snapshot_refuted`, `C08_dequeue_keeps_lists` |
| C09 | `Ring_Props.v` | `C09_ring_keeps_last`, `C09_contents_meaning`, `C09_negative_depth_refuted` |
| C10 | `Sort_Props.v` | `C10_sort_stable`, `C10_sort_permutation` |
| C11 | `Base64_Props.v` | `C11_decode_encode`, `C11_encoded_text`, `C11_decode_ignores_others`, `C11_decode_meaning`, `C11_padding` |
| C12 | `Reader_Props.v` | `C12_print_read_string`, `C12_escape_all_ascii`, `C12_newlines_escaped` |
| C13 | `Numbers_Props.v` | `C13_add`, `C13_sub`, `C13_plus_list`, `C13_minus_list`, `C13_neg`, `C13_inc_dec`, `C13_mul_refuted`, `C13_mul_partial`, `C13_mul_overflow_always_wrong`, `C13_product_list_partial`, `C13_bitwise`, `C13_ash_refuted`, `C13_ash_partial`, `C13_expt`, `C13_vm_agrees` |
| C14 | `Numbers_Props.v` | `C14_comparison_refuted`, `C14_order_refuted`, `C14_transitivity_refuted`, `C14_comparison_partial`, `C14_equality_partial`, `C14_vm_comparison`, `C14_max_min_partial`, `C14_max_refuted`, `C14_noteq_refuted` |
| C15 | `Numbers_Props.v` | `C15_remainder`, `C15_modulo`, `C15_quotient_partial`, `C15_division_law_partial`, `C15_quotient_refuted`, `C15_divide_partial`, `C15_divide_refuted`, `C15_divide_list_partial`, `C15_div_zero`, `C15_div_zero_list_refuted`, `C15_gcd_partial`, `C15_gcd_refuted` |
| C16 | `Numbers_Props.v` | `C16_print_parse_partial`, `C16_negative_hex_refuted`, `C16_radix_refuted`, `C16_parse_value` |
| C17 | `Numbers_Props.v` | `C17_canonical_unique`, `C17_canonical_refuted`, `C17_neg_partial`, `C17_add_sub_fixnum` |
| C18 | `Timers_Props.v` | `C18_no_assertion_failure`, `C18_schedule`, `C18_operation_partial`, `C18_history_partial`, `C18_sorted_meaning`, `C18_once_per_set`, `C18_deleted_silent`, `C18_delete_delays_refuted`, `C18_set_early_refuted`, `C18_set_delays_refuted`, `C18_reset_called_anyway_refuted`, `C18_race_refuted`, `C18_negative_refuted` |
| C19 | `Threads_Props.v` | `C19_refines`, `C19_one_queue`, `C19_sorted`, `C19_order_is_time`, `C19_deadline`, `C19_running_partial`, `C19_no_failure_partial`, `C19_yield`, `C19_turns`, `C19_running_refuted`, `C19_delete_outer_refuted`, `C19_wake_runnable_refuted`, `C19_wake_self_refuted`, `C19_suspend_suspended_refuted`, `C19_made_suspended_refuted` |
| C20 | `Sync_Props.v` | `C20_exclusion_partial`, `C20_obtain_partial`, `C20_maybe_partial`, `C20_queue_partial`, `C20_hand_over_partial`, `C20_no_error_partial`, `C20_no_timeout_refuted`, `C20_timed_out_refuted`, `C20_abort_refuted`, `C20_exclusion_refuted` |
| C21 | `Sync_Props.v` | `C21_signal_partial`, `C21_broadcast_partial`, `C21_wait_end_partial`, `C21_waiting_partial`, `C21_signal_refuted`, `C21_wakes_other_refuted` |
| C22 | `Sync_Props.v` | `C22_order_partial`, `C22_fetch_partial`, `C22_any_partial`, `C22_not_lost_partial`, `C22_no_timeout_refuted`, `C22_abort_refuted` |
| C23 | `Barriers_Props.v` | `C23_jump_partial`, `C23_route_unique`, `C23_alternate_partial`, `C23_valid_partial`, `C23_invalid`, `C23_callable_partial`, `C23_never_broken_partial`, `C23_nested`, `C23_same_address_refuted`, `C23_closed_crossed_refuted` |
| C24 | `Fluids_Props.v` | `C24_dynamic_binding_partial`, `C24_undone_partial`, `C24_with_fluids_partial`, `C24_with_fluids_refuted`, `C24_leak_refuted`, `C24_frame_refuted`, `C24_let_fluids_refuted` |
| C25 | `Params_Props.v` | `C25_interpreted_partial`, `C25_compiled_partial`, `C25_inlined_partial`, `C25_agree_partial`, `C25_missing`, `C25_keywords_refuted`, `C25_null_refuted`, `C25_inlined_refuted`, `C25_duplicate_refuted` |
| C26 | `Backquote_Props.v` | `C26_template_partial`, `C26_quote_refuted`, `C26_vector_refuted` |
| C27 | `Peephole_Props.v` | `C27_deterministic`, `C27_rewrite_partial`, `C27_last_rewrite_partial`, `C27_optimizer_partial`, `C27_plain_partial`, `C27_shared_cell_refuted`, `C27_jtp_jpn_refuted`, `C27_add_zero_refuted`, `C27_unused_error_refuted`, `C27_self_assignment_refuted`, `C27_scm_test_refuted`, `C27_equal_strings_refuted`, `C27_terminates_refuted` |
| C28 | `Asm_Props.v` | `C28_assembled_partial`, `C28_assembles`, `C28_duplicate_label`, `C28_long_program_refuted`, `C28_large_integers_refuted`, `C28_undefined_label_refuted`, `C28_disassembler_partial`, `C28_disassembler_refuted`, `C28_stack_sizes_partial`, `C28_stack_sizes_refuted` |
| C29 | `Lists_Props.v` | `C29_nreverse`, `C29_reverse`, `C29_append`, `C29_nconc`, `C29_nconc_shared_refuted`, `C29_delete`, `C29_delq`, `C29_delete_if_not`, `C29_filter`, `C29_mapcar`, `C29_copy`, `C29_length`, `C29_nth_partial`, `C29_nth_refuted`, `C29_last`, `C29_member`, `C29_assoc` |
| C30 | `Utf8_Props.v` | `C30_length_partial`, `C30_substring_partial`, `C30_substring_rest_partial`, `C30_range_error_partial`, `C30_zero_refuted`, `C30_long_refuted`, `C30_incomplete_refuted` |
| C31 | `Values_Props.v` | `C31_equal_reflexive`, `C31_equal_symmetric`, `C31_equal_transitive_partial`, `C31_equal_transitive_refuted`, `C31_equal_exact_partial`, `C31_equal_string_refuted` |
| C32 | `Md5_Props.v` | `C32_chunks_partial`, `C32_buffer_partial`, `C32_file`, `C32_huge_chunk_refuted`, `C32_md5_string_refuted`, `C32_md5_digits_refuted` |
| C33 | `Gc_Props.v` | `C33_reachable_kept_partial`, `C33_garbage_reclaimed_partial`, `C33_collect_again_partial`, `C33_free_list_partial`, `C33_cons_fresh_partial`, `C33_conses_distinct_partial`, `C33_pending_lost_refuted`, `C33_closure_integer_refuted`, `C33_string_count_partial`, `C33_string_count_refuted` |
| C34 | `Gc_Props.v` | `C34_weak_ref_partial`, `C34_weak_ref_no_guardians_partial`, `C34_guardian_collect_partial`, `C34_guardian_push`, `C34_guardian_pop`, `C34_at_most_once`, `C34_only_dead`, `C34_given_twice_refuted`, `C34_weak_static_refuted`, `C34_guard_static_refuted`, `C34_weak_guarded_refuted`, `C34_guard_integer_refuted` |
| C34 | `Tables_Props.v` | `C34_weak_table_after_gc` |
| C35 | `Reader_Props.v` | `C35_print_read`, `C35_print_lines_read`, `C35_blanks_skipped`, `C35_nested_comment_refuted`, `C35_abbreviations`, `C35_reader_terminates`, `C35_symbol_print_buffer`, `C35_symbols_refuted`, `C35_long_symbol_refuted`, `C35_symbol_buffer_overflow_refuted`, `C35_character_escape_refuted` |
| C36 | `Sdbm_Props.v` | `C36_walk_partial`, `C36_interrupted_walk_refuted`, `C36_after_end_refuted` |
| C37 | `Sdbm_Props.v` | `C37_lisp_delete_never_deletes`, `C37_lisp_delete_refuted` |
| C38 | `Fluids_Props.v` | `C38_loop`, `C38_after_handler_refuted` |
| C39 | `Regexp_Props.v` | `C39_string_match_partial`, `C39_looking_at_partial`, `C39_found_iff_partial`, `C39_looking_at_iff_partial`, `C39_greedy_partial`, `C39_greedy_group_refuted`, `C39_lazy_optional_refuted`, `C39_lazy_alternative_refuted`, `C39_negated_class_refuted`, `C39_ignore_case_refuted`, `C39_depth_refuted`, `C39_word_edge_refuted`, `C39_zero_byte_refuted`, `C39_start_refuted`, `C39_empty_repeat_refuted` |
| C40 | `Find_Props.v` | `C40_quote_regexp_partial`, `C40_zero_byte_refuted` |
| C41 | `Find_Props.v` | `C41_expand_partial`, `C41_expand_safe_partial`, `C41_ampersand_refuted` |
| C41 | `Regexp_Props.v` | `C41_groups_partial` |
| C42 | `Find_Props.v` | `C42_cache_partial`, `C42_no_crash_partial`, `C42_change_refuted`, `C42_write_refuted`, `C42_limit_refuted` |
| C43 | `Find_Props.v` | `C43_replace_partial`, `C43_replace_function_partial`, `C43_replaced_unique`, `C43_split_partial`, `C43_split_join_partial`, `C43_empty_match_refuted`, `C43_function_refuted` |
| C44 | `Find_Props.v` | `C44_quote_url_partial`, `C44_round_trip_partial`, `C44_distinct_partial`, `C44_zero_byte_refuted` |
| C45 | `Stream_Props.v` | `C45_output_partial`, `C45_write_partial`, `C45_write_length`, `C45_write_length_refuted`, `C45_forged_refuted` |
| C46 | `Stream_Props.v` | `C46_read_char`, `C46_read_chars`, `C46_read_line`, `C46_file_line_partial`, `C46_file_line_refuted`, `C46_copy_partial` |
| C47 | `Stream_Props.v` | `C47_format_partial`, `C47_format_stream_partial`, `C47_numerals`, `C47_negative_hex_refuted`, `C47_padding_refuted`, `C47_truncate_refuted`, `C47_sign_refuted`, `C47_underscore_refuted`, `C47_nul_refuted`, `C47_char_refuted` |
| C48 | `Modules_Props.v` | `C48_modules_partial`, `C48_one_meaning`, `C48_has_meaning_partial`, `C48_cycle_refuted`, `C48_export_all_refuted`, `C48_undefine_refuted`, `C48_meta_refuted` |
| C49 | `Modules_Props.v` | `C49_isolation_partial`, `C49_hidden_partial`, `C49_redefine_refuted` |
| C50 | `Modules_Props.v` | `C50_delivered_partial`, `C50_in_order_partial`, `C50_shared_refuted` |
| C51 | `Compile_Props.v` | `C51_value_partial`, `C51_error_partial`, `C51_effect_partial`, `C51_diverges_partial`, `C51_converse_partial`, `C51_compiles_partial`, `C51_shadowed_parameter_refuted`, `C51_shadowed_name_refuted`, `C51_inline_recursion_refuted`, `C51_surplus_arguments_refuted`, `C51_same_names_refuted`, `C51_void_setq_refuted`, `C51_definition_value_refuted`, `C51_empty_clause_refuted`, `C51_instruction_arguments_refuted` |
| C52 | `Compile_Props.v` | `C52_never_stuck_partial`, `C52_ten_bits_refuted`, `C52_funcall_refuted`, `C52_case_in_loop_refuted` |
| C53 | `Files_Props.v` | `C53_same_file_partial`, `C53_symbolic_link_refuted`, `C53_missing_directory_refuted`, `C53_simplified`, `C53_idempotent`, `C53_complete_partial`, `C53_absolute`, `C53_no_overflow_partial`, `C53_overflow_refuted`, `C53_null_refuted`, `C53_base_directory_partial`, `C53_rooted`, `C53_relative_refuted`, `C53_tilde_partial`, `C53_tilde_slash_refuted`, `C53_expanded_again_partial` |
| C54 | `Files_Props.v` | `C54_parts_partial`, `C54_parts_null_refuted`, `C54_as_directory_partial`, `C54_directory_file_name_partial`, `C54_inverse_partial`, `C54_two_slashes_refuted`, `C54_empty_refuted`, `C54_home_partial`, `C54_home_refuted` |
| C55 | `Files_Props.v` | `C55_canonical_partial`, `C55_root_refuted`, `C55_long_name_refuted`, `C55_operation_partial`, `C55_operation_refuted` |
| C56 | `Symbols_Props.v` | `C56_agrees_partial`, `C56_intern_found_partial`, `C56_intern_distinct_partial`, `C56_intern_keeps_partial`, `C56_unintern_partial`, `C56_apropos_partial`, `C56_unintern_elsewhere_refuted`, `C56_unintern_loop_refuted`, `C56_unintern_order_refuted`, `C56_null_refuted`, `C56_written_name_refuted`, `C56_size_zero_refuted` |
| C57 | `Symbols_Props.v` | `C57_put_get_partial`, `C57_put_other_partial`, `C57_shared_refuted`, `C57_history`, `C57_restricted`, `C57_restricted_refuted` |
| C58 | `Symbols_Props.v` | `C58_keyword_partial`, `C58_keyword_distinct_partial`, `C58_keyword_unintern_refuted`, `C58_gensym_partial`, `C58_gensym_refuted` |
| C59 | `Dates_Props.v` | `C59_fix_partial`, `C59_fix_negative_refuted`, `C59_later_partial`, `C59_later_before_1970`, `C59_later_refuted`, `C59_seconds_partial`, `C59_seconds_before_1970`, `C59_seconds_refuted`, `C59_minus` |
| C60 | `Dates_Props.v` | `C60_day_number`, `C60_every_day`, `C60_next_day_partial`, `C60_year_zero_refuted`, `C60_weekday_partial`, `C60_instant_partial`, `C60_pre_epoch_refuted` |
| C61 | `Dates_Props.v` | `C61_rfc822_partial`, `C61_ctime_partial`, `C61_iso_partial`, `C61_terminates`, `C61_case_refuted`, `C61_zone_eats_month_refuted`, `C61_iso_t_refuted`, `C61_weekday_local_refuted` |
| C62 | `Strings_Props.v` | `C62_read_what_was_written`, `C62_aset_in_bounds`, `C62_aref_in_bounds`, `C62_new_arrays_partial`, `C62_long_vectors`, `C62_vector_length_refuted`, `C62_vector_size_refuted`, `C62_copy_writable_refuted`, `C62_stored_is_returned_refuted`, `C62_elt_partial`, `C62_elt_refuted` |
| C63 | `Strings_Props.v` | `C63_substring_partial`, `C63_substring_refuted`, `C63_concat_partial`, `C63_concat_refuted`, `C63_split_partial`, `C63_mapconcat_partial` |
| C64 | `Strings_Props.v` | `C64_head_partial`, `C64_head_refuted`, `C64_equal_partial`, `C64_order`, `C64_equal_refuted`, `C64_high_bytes_refuted` |
| C65 | `Strings_Props.v` | `C65_complete_partial`, `C65_completion_unique`, `C65_completion_stable`, `C65_complete_zero_refuted`, `C65_translate_partial`, `C65_translate_self_refuted`, `C65_case_partial`, `C65_capitalize_empty_refuted`, `C65_case_predicates` |
| C66 | `Xml_Props.v` | `C66_entities_partial`, `C66_read_partial`, `C66_ends_partial`, `C66_unclosed_partial`, `C66_unclosed_refuted`, `C66_question_refuted`, `C66_comment_refuted`, `C66_return_refuted` |
| C67 | `Xml_Props.v` | `C67_text_partial`, `C67_round_partial`, `C67_escape_refuted`, `C67_comment_refuted`, `C67_question_refuted`, `C67_merge_refuted` |
| C68 | `Control_Props.v` | `C68_interpreter`, `C68_one_outcome`, `C68_unwinding`, `C68_catch`, `C68_condition_case`, `C68_cleanup_once`, `C68_variables`, `C68_error_in_list_refuted`, `C68_catch_error_refuted` |
| C69 | `Control_Props.v` | `C69_compiled_partial`, `C69_in_context_partial`, `C69_tag_evaluated_refuted`, `C69_tag_variable_refuted`, `C69_improper_error_refuted` |
| C70 | `Hooks_Props.v` | `C70_changes`, `C70_member`, `C70_run`, `C70_only`, `C70_ends`, `C70_endless_refuted`, `C70_removed_refuted`, `C70_added_refuted`, `C70_shared_refuted` |
| C71 | `Macros_Props.v` | `C71_expansion`, `C71_protected`, `C71_remembered`, `C71_redefined_refuted`, `C71_changed_refuted` |
| C72 | `Memo_Props.v` | `C72_same`, `C72_once`, `C72_nil_refuted` |
| C73 | `Origins_Props.v` | `C73_origin`, `C73_no_stale` |
| C74 | `Syntax_Props.v` | `C74_if`, `C74_when`, `C74_unless`, `C74_progn`, `C74_or`, `C74_and`, `C74_case`, `C74_let`, `C74_let_star`, `C74_letrec`, `C74_named_let`, `C74_prog1`, `C74_prog2`, `C74_while`, `C74_do`, `C74_hidden_kept`, `C74_case_empty_refuted`, `C74_named_let_scope_refuted`, `C74_unless_local_refuted`, `C74_letrec_empty_refuted` |
| C75 | `Records_Props.v` | `C75_records`, `C75_has_type_refuted`, `C75_eol_is_mutable`, `C75_accessor_unknown_field`, `C75_accessor_nil_refuted`, `C75_field_named_vector_refuted`, `C75_field_named_type_refuted` |
| C76 | `Trie_Props.v` | `C76_tries` |
| C77 | `Fold_Props.v` | `C77_compiled_form`, `C77_compile_error`, `C77_dead_code_refuted`, `C77_shadowed_constant_refuted`, `C77_string_match_refuted`, `C77_concat_refuted` |
| C78 | `Load_Props.v` | `C78_search`, `C78_plain_file_refuted`, `C78_after_load`, `C78_after_load_ends`, `C78_order`, `C78_failing_call_refuted` |
| C79 | `Require_Props.v` | `C79_once`, `C79_ends`, `C79_required`, `C79_only_here`, `C79_featurep_refuted`, `C79_not_provided_refuted`, `C79_mutual_refuted`, `C79_misnamed_refuted`, `C79_bare_structure_refuted` |
| C80 | `Objects_Props.v` | `C80_inheritance`, `C80_found`, `C80_one_method`, `C80_self_argument_refuted`, `C80_spoofed_refuted` |
| C81 | `Rounding_Props.v` | `C81_integers`, `C81_floor_partial`, `C81_ceiling_partial`, `C81_truncate_partial`, `C81_round_partial`, `C81_unique`, `C81_floor_refuted`, `C81_floor_great_refuted`, `C81_round_refuted`, `C81_parts`, `C81_numerator_fixnum_refuted`, `C81_numerator_bignum_refuted`, `C81_abs_partial`, `C81_abs_rational`, `C81_abs_refuted`, `C81_lcm_partial`, `C81_lcm_one_refuted`, `C81_lcm_three_refuted`, `C81_lcm_zero_refuted`, `C81_parity` |
| C82 | `Environ_Props.v` | `C82_getenv_partial`, `C82_setenv_partial`, `C82_unsetenv_partial`, `C82_one_value`, `C82_child_partial`, `C82_start_partial`, `C82_equals_refuted`, `C82_empty_child_refuted`, `C82_start_refuted` |
| C83 | `Cgi_Props.v` | `C83_params_partial`, `C83_unambiguous_partial`, `C83_value`, `C83_escaped_name_refuted`, `C83_parts_refuted`, `C83_nameless_refuted`, `C83_malformed_refuted` |
| C84 | `Realpath_Props.v` | `C84_canonical`, `C84_same_file_partial`, `C84_found_partial`, `C84_again`, `C84_one_path_partial`, `C84_endless_refuted`, `C84_not_directory_refuted`, `C84_empty_refuted` |
| C85 | `Gaol_Props.v` | `C85_integrity`, `C85_secret_partial`, `C85_lasting`, `C85_modules_partial`, `C85_own_variable`, `C85_reclaimed_partial`, `C85_takeover_refuted`, `C85_undeclared_refuted`, `C85_compiled_refuted`, `C85_let_refuted`, `C85_boundp_refuted`, `C85_get_refuted` |
| C86 | `Ffi_Props.v` | `C86_round_trip_partial`, `C86_bounds_partial`, `C86_layout_partial`, `C86_array_partial`, `C86_arguments_room_partial`, `C86_arguments_partial`, `C86_struct_ids`, `C86_stable`, `C86_alias_partial`, `C86_padding_refuted`, `C86_overflow_refuted`, `C86_empty_refuted`, `C86_uint64_refuted`, `C86_range_refuted`, `C86_alias_same_refuted`, `C86_alias_get_refuted`, `C86_nil_conversion_refuted`, `C86_short_vector_refuted` |
| C87 | `Options_Props.v` | `C87_absent`, `C87_answers`, `C87_order`, `C87_repeat`, `C87_actions`, `C87_script_words`, `C87_error_stops`, `C87_startup`, `C87_flag_value_refuted`, `C87_steal_refuted`, `C87_missing_refuted`, `C87_shared_refuted`, `C87_swallowed_refuted` |
| C88 | `Domain_Props.v` | `C88_parts_partial`, `C88_parent_partial`, `C88_compare_partial`, `C88_order_partial`, `C88_walk_partial`, `C88_chain_unique`, `C88_case_refuted`, `C88_absolute_refuted`, `C88_zero_byte_refuted` |
| C89 | `Inputs_Props.v` | `C89_registered`, `C89_tables`, `C89_marked_served`, `C89_ready_served`, `C89_turn_order`, `C89_marks_kept`, `C89_only_fds`, `C89_only_callbacks`, `C89_sit_for_bound`, `C89_sit_for_waits`, `C89_uninitialised`, `C89_signal_refuted`, `C89_sit_for_serves_refuted`, `C89_negative_refuted`, `C89_poll_refuted`, `C89_stale_mark_refuted`, `C89_reused_refuted`, `C89_starvation_refuted` |
| C90 | `Rpc_Props.v` | `C90_whole_messages`, `C90_prompt`, `C90_pieces_do_not_matter`, `C90_beginning_waits`, `C90_cut_after_hash_refuted`, `C90_cut_in_literal_refuted` |
| C91 | `Calls_Props.v` | `C91_at_most_once`, `C91_own_answer`, `C91_delivered`, `C91_unasked`, `C91_loss_is_silent`, `C91_outcome`, `C91_in_order`, `C91_all_answered`, `C91_comes_to_rest`, `C91_lost_connection_refuted`, `C91_other_connection_refuted`, `C91_failed_call_refuted` |
| C92 | `Remote_Props.v` | `C92_numbers`, `C92_big_numbers`, `C92_big_numbers_refuted`, `C92_commands`, `C92_get`, `C92_big_files_refuted`, `C92_get_failure`, `C92_get_failure_refuted`, `C92_links`, `C92_simple`, `C92_directories`, `C92_directory_failure`, `C92_names`, `C92_put`, `C92_put_endless`, `C92_put_stops_refuted`, `C92_connect`, `C92_connect_refuted` |
| C93 | `Dircache_Props.v` | `C93_fresh`, `C93_own_changes`, `C93_one_each`, `C93_never_full`, `C93_bound_refuted`, `C93_broken_refuted`, `C93_renamed_directory_refuted` |
| C94 | `Position_Props.v` | `C94_position`, `C94_right`, `C94_option_index`, `C94_remove_newlines` |
| C95 | `Ftp_Props.v` | `C95_lines`, `C95_cutting`, `C95_prompt_refuted`, `C95_hash_refuted` |
| C96 | `Repdoc_Props.v` | `C96_blocks`, `C96_database`, `C96_long_endless`, `C96_ends_refuted`, `C96_end_line_refuted` |
| C97 | `Paren_Props.v` | `C97_match`, `C97_nothing_open`, `C97_opening`, `C97_backslash_refuted`, `C97_string_refuted`, `C97_escaped_refuted` |
| C98 | `Xgettext_Props.v` | `C98_message`, `C98_file`, `C98_exactly`, `C98_lines_refuted` |
| C99 | `Proxy_Props.v` | `C99_serial`, `C99_answer`, `C99_all_answered`, `C99_dead`, `C99_waits_refuted` |
| C100 | `Repl_Props.v` | `C100_command`, `C100_unknown`, `C100_definitions`, `C100_entries`, `C100_blank`, `C100_rest_refuted` |
| C101 | `Ispell_Props.v` | `C101_line`, `C101_words`, `C101_late_refuted`, `C101_two_refuted` |
| C102 | `Tar_Props.v` | `C102_listing`, `C102_pending_refuted`, `C102_directory`, `C102_links`, `C102_loop_refuted`, `C102_modes` |
| C103 | `Autoload_Props.v` | `C103_reference_partial`, `C103_loads`, `C103_definition`, `C103_cell_refuted`, `C103_overwritten_refuted` |
| C104 | `Mapping_Props.v` | `C104_cases`, `C104_mapcar`, `C104_filter`, `C104_search`, `C104_dotted_refuted` |
| C105 | `Libtool_Props.v` | `C105_read_partial`, `C105_required`, `C105_closed_refuted`, `C105_long_refuted` |

## How to read `seeded/LOG.jsonl`

- Each line is one edit of the model in a scratch copy. `theorems_failed` lists theorems and examples whose
  proof, or that of a lemma below them, no longer went through (each command had 20 seconds).
- A proof that breaks does not show that the theorem became false: the edit may only upset the script. The log
  is evidence that theorems depend on the code they are about, not a proof that each edit is refuted.
- Edits after which everything still proved have an empty `theorems_failed`. The script that wrote the log
  left such edits out; those still found in its kept outputs were added by hand at the end.
- Attempts are missing from the log when the edit could not be applied or the files above no longer type
  checked (about twenty).
