{"id": "C01", "title": "Hash tables behave as finite maps", "statement": "After any sequence of table-set, table-unset and clearing-free lookups on a table made by make-table, table-ref returns the value most recently stored under an equivalent key and not since unset, nil otherwise, and table-bound-p tells exactly whether there is such a value; growing the bucket array never changes any answer.", "quantifier": "every hash function and every equivalence test that agree with each other, every sequence of operations of any length, every key and value", "why_tests_cant": "resizes happen only at particular sizes and the answer depends on the whole history and on the hash function supplied by the user", "anchors": ["src/tables.c: Fmake_table Ftable_ref Ftable_bound_p Ftable_set Ftable_unset lookup hash_key hash_key_to_bin"]}
{"id": "C02", "title": "table-size and table-walk agree with the map", "statement": "table-size is the number of distinct keys currently bound, and table-walk calls the function once, and only once, for each bound key with its current value.", "quantifier": "every operation history, every hash function", "why_tests_cant": "needs the counter, the bucket array and the history to agree after any number of resizes", "anchors": ["src/tables.c: Ftable_size Ftable_walk Ftable_set Ftable_unset"]}
{"id": "C03", "title": "equal values have equal hashes", "statement": "If (equal x y) then (equal-hash x n) = (equal-hash y n) for every depth n, so that a table made with equal-hash and equal never loses a key.", "quantifier": "all pairs of Lisp values built from integers, strings, symbols, conses and vectors; every depth bound", "why_tests_cant": "quantifies over pairs of unbounded trees and over a depth cut-off", "anchors": ["src/tables.c: rep_value_hash equal_hash hash_string Fequal_hash", "src/values.c: rep_value_cmp cons_cmp vector_cmp string_cmp"]}
{"id": "C04", "title": "An sdbm page stores pairs faithfully", "statement": "On a well-formed page, inserting a pair that fits, fetching, deleting and iterating behave like an association map from keys to values; no operation corrupts other pairs on the page and well-formedness is preserved.", "quantifier": "every well-formed page, every key and value byte string that fits, every sequence of insertions and deletions", "why_tests_cant": "page layout depends on every earlier insertion and deletion and on byte lengths", "anchors": ["src/sdbm_pair.c: fitpair putpair getpair exipair delpair getnkey seepair chkpage splpage", "src/sdbm.h: PBLKSIZ"]}
{"id": "C05", "title": "An sdbm database behaves as a map", "statement": "For every sequence of store, fetch and delete on an sdbm file the fetched value is the last one successfully stored under that key and not deleted since, whatever page splits took place.", "quantifier": "every operation history, every key and value, every page-split tree shape", "why_tests_cant": "split sequences depend on hash values of the whole key set", "anchors": ["src/sdbm.c: sdbm_fetch sdbm_store sdbm_delete makroom getpage getdbit setdbit", "src/sdbm_pair.c: splpage"]}
{"id": "C06", "title": "A crash while splitting an sdbm page does not lose old pairs", "statement": "If the process dies between any two writes of a store that splits a page, every pair stored by earlier completed stores can still be fetched after reopening.", "quantifier": "every database state and every crash point between two writes", "why_tests_cant": "a crash can happen between any two system calls", "anchors": ["src/sdbm.c: makroom sdbm_store setdbit"]}
{"id": "C07", "title": "A failed replacing store leaves the old value", "statement": "If sdbm_store in replace mode fails the value stored earlier under the key is still fetched.", "quantifier": "every database state and every failing store", "why_tests_cant": "failure needs particular page contents reached by long histories", "anchors": ["src/sdbm.c: sdbm_store makroom"]}
{"id": "C08", "title": "Queues are first-in first-out", "statement": "For every sequence of enqueue, dequeue, delete-from-queue on a queue, queue->list, queue-length, queue-empty-p and dequeue agree with a plain list used first-in first-out, and dequeue of an empty queue signals an error.", "quantifier": "every operation history, every element values including duplicates", "why_tests_cant": "the structure is mutated in place with a cached tail pointer, so a stale tail only shows after particular interleavings", "anchors": ["lisp/rep/data/queues.jl: make-queue enqueue dequeue queue->list queue-length delete-from-queue queue-empty-p"]}
{"id": "C09", "title": "A ring keeps the most recent N items", "statement": "After any sequence of ring-append, ring-replace and set-ring-head operations, ring-ref, ring-size and ring->list return the last (at most N) added items in order, wrapping transparently.", "quantifier": "every capacity N >= 1 and every operation history", "why_tests_cant": "off-by-one wrap errors appear only for particular positions", "anchors": ["lisp/rep/data/ring.jl: make-ring ring-append ring-ref ring-size ring->list ring-replace set-ring-head"]}
{"id": "C10", "title": "sort returns a stable sorted permutation", "statement": "(sort list pred) returns a list containing exactly the elements of the input, ordered by pred, with elements that compare equal kept in their original order.", "quantifier": "every list and every strict weak order", "why_tests_cant": "all lists and all orders", "anchors": ["lisp/rep/data/sort.jl: sort"]}
{"id": "C11", "title": "base64 decoding inverts base64 encoding", "statement": "Decoding what base64-encode writes for any byte string returns that byte string; the encoded text only has alphabet characters, '=' padding and line breaks, with no line longer than 76 characters; decoding ignores other characters.", "quantifier": "every byte string of any length", "why_tests_cant": "padding and line breaking interact for every length modulo 3 and modulo the line length", "anchors": ["lisp/rep/util/base64.jl: base64-encode base64-decode"]}
{"id": "C12", "title": "Strings survive printing and reading", "statement": "Printing a string with any setting of print-escape and reading it back gives a string with the same bytes.", "quantifier": "every byte string and every print-escape mode", "why_tests_cant": "all byte sequences, escapes depend on the following character", "anchors": ["src/lisp.c: rep_string_print read_str", "src/streams.c: rep_stream_read_esc"]}
{"id": "C13", "title": "Exact integer arithmetic never loses digits", "statement": "For exact integers of any size +, -, *, 1+, 1-, ash, lognot, logior, logxor, logand and gcd return the mathematical result.", "quantifier": "all integers, whether represented as machine words or as big numbers", "why_tests_cant": "overflow boundaries; the domain is infinite", "anchors": ["src/numbers.c: rep_number_add rep_number_sub rep_number_mul rep_number_neg Fash Fplus1 Fsub1 rep_number_logxor rep_number_logior rep_number_logand rep_number_lognot rep_integer_gcd promote_dup maybe_demote"]}
{"id": "C14", "title": "Numeric comparison is the mathematical order", "statement": "=, <, >, <=, >=, eql and equal on exact integers return what the mathematical order says, hence form a total order.", "quantifier": "all pairs of exact integers", "why_tests_cant": "failures need operands far apart", "anchors": ["src/numbers.c: rep_compare_numbers number_cmp Feql", "src/lispcmds.c: Fnum_eq Fltthan Fgtthan Fequal APPLY_COMPARISON"]}
{"id": "C15", "title": "Division laws", "statement": "For exact integers with a non-zero divisor: (quotient x y)*y + (remainder x y) = x with the remainder having the sign of x, (mod x y) has the sign of y and differs from x by a multiple of y, and (/ x y) is the exact rational in lowest terms.", "quantifier": "all exact integers x and y, y non-zero", "why_tests_cant": "infinite domain with sign and overflow corner cases", "anchors": ["src/numbers.c: Fquotient Fremainder Fmod rep_number_div"]}
{"id": "C16", "title": "Integers survive printing and reading", "statement": "Printing an exact integer in radix 10 (or with number->string in radix 2, 8, 16) and parsing the digits gives the same integer.", "quantifier": "all exact integers and supported radixes", "why_tests_cant": "infinite domain; digit-count cut-off between two parsing algorithms", "anchors": ["src/numbers.c: rep_parse_number rep_print_number_to_string Fnumber_to_string Fstring_to_number"]}
{"id": "C17", "title": "Integers are kept in canonical representation", "statement": "Every arithmetic function returns a fixnum whenever the result fits in a fixnum, so fixnump depends only on the value.", "quantifier": "all argument values", "why_tests_cant": "depends on the values of results of arbitrary size", "anchors": ["src/numbers.c: maybe_demote rep_number_neg rep_number_logand rep_integer_gcd Fexpt"]}
{"id": "C18", "title": "Timers fire in deadline order and no timer moves another", "statement": "Setting or deleting a timer leaves the absolute firing time of every other pending timer unchanged, the pending list stays ordered by firing time and the clock handler fires exactly the timers whose time has come, each once.", "quantifier": "every history of set-timer, delete-timer and clock ticks", "why_tests_cant": "depends on interleavings of timer operations and clock ticks", "anchors": ["src/timers.c: insert_timer delete_timer fix_time timer_signal_handler timer_fd_handler Fset_timer Fdelete_timer"]}
{"id": "C19", "title": "Thread queues stay well linked", "statement": "After any sequence of thread creation, yield, suspend, wake and delete, every live thread is in exactly one of the run queue and the suspended queue, all-threads lists each exactly once, the running thread is the head of the run queue and suspended threads are ordered by wake-up time.", "quantifier": "every scheduling history", "why_tests_cant": "history dependent pointer manipulation", "anchors": ["src/continuations.c: enqueue_thread unlink_thread thread_wake thread_suspend thread_yield thread_delete thread_invoke Fall_threads"]}
{"id": "C20", "title": "Mutexes give mutual exclusion and hand-off", "statement": "At most one thread holds a mutex at any time; release by the owner passes it to the thread that has waited longest; a thread whose obtain timed out never becomes owner by a later release.", "quantifier": "every interleaving of obtain, timed obtain, timeout and release by any number of threads", "why_tests_cant": "schedules", "anchors": ["lisp/rep/threads/mutex.jl: obtain-mutex maybe-obtain-mutex release-mutex"]}
{"id": "C21", "title": "Condition variable signals reach waiters", "statement": "A signal on a condition variable with waiting threads wakes a thread that is still waiting, a broadcast wakes them all.", "quantifier": "every interleaving of wait, timed wait, signal and broadcast", "why_tests_cant": "schedules", "anchors": ["lisp/rep/threads/condition-variable.jl: condition-variable-wait condition-variable-signal condition-variable-broadcast"]}
{"id": "C22", "title": "Message ports deliver in order, once", "statement": "Messages sent to a port are received in the order sent, each exactly once, whatever the interleaving of senders and receivers.", "quantifier": "every interleaving", "why_tests_cant": "schedules", "anchors": ["lisp/rep/threads/message-port.jl: message-fetch message-send"]}
{"id": "C23", "title": "Invoking a continuation crosses exactly the right barriers", "statement": "Invoking a continuation runs the out functions of exactly the barriers left, innermost first, then the in functions of exactly the barriers entered, outermost first, and is refused when a closed barrier lies between.", "quantifier": "every pair of barrier stacks", "why_tests_cant": "tree of dynamic extents of any shape", "anchors": ["src/continuations.c: rep_call_with_barrier trace_barriers common_ancestor primitive_invoke_continuation primitive_call_cc"]}
{"id": "C24", "title": "Dynamic bindings are undone on every exit", "statement": "After any code that binds fluids or special variables finishes (normally, or by a throw or error), every fluid and special variable has the value assigned most recently outside that code.", "quantifier": "every nesting of bindings, assignments and exits", "why_tests_cant": "all control paths, nesting depth unbounded", "anchors": ["src/fluids.c: Fwith_fluids Ffluid Ffluid_set", "src/symbols.c: rep_bind_symbol rep_bind_special rep_unbind_symbols"]}
{"id": "C25", "title": "Lambda lists bind arguments as documented", "statement": "Binding an argument list to a lambda list with required, #!optional, #!key and #!rest parameters gives each parameter the documented argument or default and signals an error exactly when arguments are missing.", "quantifier": "every well-formed lambda list and every argument list", "why_tests_cant": "all combinations of parameter kinds and argument counts", "anchors": ["src/lisp.c: bind_lambda_list_1 bind_lambda_list"]}
{"id": "C26", "title": "Backquote builds the described structure", "statement": "Evaluating the expansion of a backquoted template yields the template with each unquoted form replaced by its value and each spliced form replaced by its elements, at every nesting depth.", "quantifier": "every template and environment", "why_tests_cant": "unbounded nesting of quasi-quotes, splices and dotted tails", "anchors": ["lisp/rep/lang/backquote.jl: backquote bq-cnstr"]}
{"id": "C27", "title": "The peephole optimiser preserves meaning", "statement": "Every rewrite the peephole optimiser applies to a bytecode sequence leaves the observable behaviour of the program unchanged (same result, same assignments, same errors).", "quantifier": "every instruction sequence and every initial machine state", "why_tests_cant": "programs and states are unbounded", "anchors": ["lisp/rep/vm/peephole.jl: peephole-optimizer", "src/lispmach.h"]}
{"id": "C28", "title": "Assembling keeps every instruction and jump target", "statement": "Decoding the byte string made by the assembler gives back the instruction list with every jump pointing at the byte address of its label.", "quantifier": "every assembly program within the format's limits", "why_tests_cant": "variable-length encodings and backpatching depend on total program size", "anchors": ["lisp/rep/vm/assembler.jl: assemble", "lisp/rep/vm/bytecode-defs.jl"]}
{"id": "C29", "title": "Destructive list functions touch only what they say", "statement": "nreverse, nconc, delq, delete and append on proper lists give the list result their documentation describes and leave all cells outside their arguments unchanged; append and reverse leave their arguments intact (append shares only its last).", "quantifier": "every heap and every proper lists in it", "why_tests_cant": "aliasing and heap shape", "anchors": ["src/lispcmds.c: Fnreverse Fnconc Fdelq Fdelete Fappend Freverse Fcopy_sequence Flast"]}
{"id": "C30", "title": "UTF-8 functions count and cut characters", "statement": "On valid UTF-8 text utf8-string-length is the number of characters and utf8-substring returns the encoding of exactly the characters selected.", "quantifier": "every sequence of Unicode characters, every range", "why_tests_cant": "all texts", "anchors": ["src/utf8.c: utf8_strlen utf8_offset_to_pointer Futf8_substring Futf8_string_length"]}
{"id": "C31", "title": "equal is an equivalence relation", "statement": "equal is reflexive, symmetric and transitive on finite values.", "quantifier": "all finite values", "why_tests_cant": "pairs and triples of unbounded trees", "anchors": ["src/values.c: rep_value_cmp cons_cmp vector_cmp string_cmp", "src/numbers.c: number_cmp"]}
{"id": "C32", "title": "MD5 does not depend on how input is chunked", "statement": "Feeding the same bytes to the digest in any sequence of chunks gives the same digest.", "quantifier": "every byte string and every way of cutting it", "why_tests_cant": "block buffering boundaries", "anchors": ["src/md5.c: md5_process_bytes md5_process_block md5_finish_ctx"]}
{"id": "C33", "title": "Collecting garbage keeps everything reachable", "statement": "After a mark and sweep every object reachable from the roots still exists with the same contents and every unreachable unprotected object is reclaimed.", "quantifier": "every heap graph, with cycles and sharing", "why_tests_cant": "all graphs", "anchors": ["src/values.c: rep_mark_value cons_sweep Fgarbage_collect"]}
{"id": "C34", "title": "Weak references and guardians see exactly the dead", "statement": "A weak reference is cleared by a collection exactly when its referent is unreachable from the roots; a guardian returns each guarded object at most once, and only after it became unreachable.", "quantifier": "every heap graph and every history of guardian calls", "why_tests_cant": "all graphs and histories", "anchors": ["src/weak-refs.c: Fmake_weak_ref rep_scan_weak_refs", "src/values.c: run_guardians"]}
{"id": "C35", "title": "Printed data read back", "statement": "Any datum built from exact numbers, strings, symbols, keywords, the literals, pairs, vectors and compiled code, printed with prin1 and followed by a delimiter or the end of the text, is read back by read as an equal datum, and read consumes exactly the printed text; data printed one after another read back one after another; comments and white space before a datum do not matter; reading any text whatever ends.", "quantifier": "every datum of any size and depth, every print-escape mode, every following text, every text for termination", "why_tests_cant": "data nest without bound and symbol names range over all byte strings; the escaping rules of the printer have to agree with the tokenizer on every one", "anchors": ["src/lisp.c: readl read_list read_symbol read_vector rep_lisp_prin", "src/symbols.c: symbol_print", "src/streams.c: Fread Fprint Fprin1", "src/numbers.c: rep_parse_number"]}
{"id": "C36", "title": "Walking an sdbm database visits every key once", "statement": "Calling firstkey and then nextkey until it returns nothing yields every key in the database exactly once and no other key.", "quantifier": "every database state reached by any history, every page-split tree shape", "why_tests_cant": "the order and number of pages depends on hash values and on the whole history of splits", "anchors": ["src/sdbm.c: sdbm_firstkey sdbm_nextkey getnext", "src/sdbm_pair.c: getnkey"]}
{"id": "C37", "title": "sdbm-delete removes the key it is given", "statement": "After (sdbm-delete DBM KEY) returned true, (sdbm-fetch DBM KEY) returns nil and every other key keeps its value.", "quantifier": "every database state and every key", "why_tests_cant": "all states and keys", "anchors": ["src/repsdbm.c: Fsdbm_delete Fsdbm_fetch Fsdbm_store"]}
{"id": "C38", "title": "Tail calls of compiled functions take no stack", "statement": "When a compiled function ends by calling another compiled function while none of its special bindings, fluid bindings or exception handlers is in force, the call replaces the caller: a chain of such calls of any length runs within the Lisp depth and C stack of the first, and never loses a binding that is in force.", "quantifier": "every length of the chain and every state of the caller", "why_tests_cant": "the length is unbounded and the conditions concern all paths through the caller", "anchors": ["src/lispmach.h: OP_CALL OP_APPLY OP_UNBIND OP_BINDERR impurity"]}
{"id": "C39", "title": "string-match finds the leftmost match the regexp language describes", "statement": "string-match returns true iff the regular expression, as the manual describes its syntax and meaning, matches some substring starting at or after START; the match it reports is one, starts leftmost, and is the preferred one there (alternatives in order, greedy repetitions as much as possible, minimal ones as little); string-looking-at the same at START only. Neither reads outside the string.", "quantifier": "every regular expression, every string, START and case flag", "why_tests_cant": "infinitely many regular expressions and strings; backtracking depends on their combination", "anchors": ["src/regexp.c: rep_regcomp rep_regexec2 rep_regmatch_string regmatch regrepeat", "src/find.c: Fstring_match Fstring_looking_at", "man/lang.texi: Regexp Syntax"]}
{"id": "C40", "title": "quote-regexp makes a regexp that matches exactly its argument", "statement": "(string-match (quote-regexp S) T START) returns true iff S is a substring of T at or after START, and then (match-start) is the first such position and (match-end) that plus the length of S.", "quantifier": "every S, T and START", "why_tests_cant": "all strings, including every combination of special characters", "anchors": ["src/find.c: Fquote_regexp", "man/lang.texi: quote-regexp"]}
{"id": "C41", "title": "Match data and expand-last-match describe the parentheses of the match", "statement": "After a successful match (match-start N), (match-end N) delimit a substring within the match which the N'th parenthesised expression matches, or are both nil; expand-last-match substitutes these substrings for \\N, the whole match for \\0 and \\&, a backslash for \\\\, and copies other characters; it writes no more than it allocates.", "quantifier": "every regular expression, string and template", "why_tests_cant": "all expressions, nestings and templates", "anchors": ["src/regexp.c: regmatch OPEN CLOSE", "src/find.c: Fmatch_start Fmatch_end Fexpand_last_match", "src/regsub.c: rep_default_regsub rep_default_regsublen"]}
{"id": "C42", "title": "The regexp cache is invisible", "statement": "Whatever sequence of matches, string modifications, collections and changes of the cache limit is performed, every match uses the regexp compiled from the present contents of the string given.", "quantifier": "every sequence of operations", "why_tests_cant": "depends on the whole history of the cache and on when collections happen", "anchors": ["src/find.c: rep_compile_regexp rep_string_modified mark_cached_regexps Fregexp_cache_control"]}
{"id": "C43", "title": "string-replace and string-split treat every match once", "statement": "(string-replace RE TEMPLATE S) is S with the leftmost match of RE and, in what follows it, the further matches replaced by the expansion of TEMPLATE for that match; (string-split RE S) lists the substrings between the matches. Both return for all arguments. Splitting at a literal separator and joining with it gives S back.", "quantifier": "every regular expression, template and string", "why_tests_cant": "all strings and expressions; termination is not testable", "anchors": ["lisp/rep/regexp.jl: string-replace string-split", "man/lang.texi: string-replace string-split"]}
{"id": "C44", "title": "quote-url is inverted by unquote-url", "statement": "(quote-url S) consists of letters, digits, the characters $_.!~*'(),- and % followed by two hexadecimal digits; it leaves the former unchanged, and (unquote-url (quote-url S)) is S.", "quantifier": "every string", "why_tests_cant": "all strings", "anchors": ["lisp/rep/www/quote-url.jl: quote-url unquote-url"]}
{"id": "C45", "title": "String output streams collect exactly what is written", "statement": "get-output-stream-string returns the characters written to the stream since it was made or last emptied, in order; the returned string is a new object that later writes to this or any other stream never change; write returns the number of characters it wrote and signals an error for a LENGTH the string does not have. No memory outside the buffers is touched.", "quantifier": "every program of make-string-output-stream, write and get-output-stream-string on any number of streams", "why_tests_cant": "any number and order of writes of any lengths; buffers grow at sizes depending on the history", "anchors": ["src/streams.c: rep_stream_putc rep_stream_puts Fwrite Fmake_string_output_stream Fget_output_stream_string"]}
{"id": "C46", "title": "Reading characters, blocks and lines loses and repeats nothing", "statement": "peek-char returns what read-char will and does not move; read-chars returns the next COUNT characters or what is left, nil if nothing; read-line returns the characters up to and including the next newline, or the rest, whatever the length of the line; copy-stream appends all that is left and returns its length. The stream is afterwards just behind what was returned.", "quantifier": "every string, position, count and line length; files for read-line", "why_tests_cant": "all lengths around the sizes of the growing buffer", "anchors": ["src/streams.c: Fread_char Fpeek_char Fread_chars Fread_line Fcopy_stream"]}
{"id": "C47", "title": "format substitutes its arguments as the template says", "statement": "The output of format is the template with each directive %[n$][flags][width]conversion replaced by the text of its argument (n-th, otherwise the one after the last used), padded or cut to the width as the flags say, and %% by a percent sign; d, o, x write the numeral of an integer of any size.", "quantifier": "every template, list of arguments and set of hooks", "why_tests_cant": "all combinations of index, flags, width, conversion and value", "anchors": ["src/streams.c: Fformat", "man/lang.texi: format"]}
{"id": "C48", "title": "A variable reference sees the binding its module's imports give now", "statement": "In any sequence of making, naming, opening, defining, setting, exporting, changing interfaces and collecting modules, each reference, each external reference and each query about a binding answers what the modules say at that moment: the module's own binding, otherwise that of the first opened module, last opened first, that exports the symbol or passes it on. The cache of references cannot be noticed, and no freed binding is read.", "quantifier": "every program of module operations, every assignment of symbols to hash chains and cache sets, every graph of imports", "why_tests_cant": "stale entries need a particular history, import graph and placement of symbols in the sets of the cache", "anchors": ["src/structures.c: enter_cache lookup_cache cache_invalidate_symbol cache_invalidate_struct cache_flush lookup_or_add remove_binding lookup_recursively rep_search_imports"]}
{"id": "C49", "title": "Modules are isolated from each other", "statement": "A value seen in a module was defined in it or exported by a module it reaches through its imports; a definition in a module that another one does not reach changes nothing in that one. A binding that is removed and made again is exported as before.", "quantifier": "every program of module operations, every pair of modules and symbols", "why_tests_cant": "non-interference is a statement about all pairs of runs", "anchors": ["src/structures.c: lookup_recursively Fstructure_define remove_binding Fstructure_exports_p"]}
{"id": "C50", "title": "Modules with the same interface all export it", "statement": "A module made with an interface exports the symbols of the interface that it defines, in whatever order it defines them and whichever other modules have the same interface.", "quantifier": "every interface, order of definitions and sequence of modules", "why_tests_cant": "depends on the order of definitions and on the sharing of list structure", "anchors": ["src/structures.c: lookup_or_add Fmake_structure", "src/lispcmds.c: Fdelq", "lisp/rep/structures.jl: parse-interface"]}
{"id": "C51", "title": "Compiled code does what the interpreter does", "statement": "Compiling a form and running the byte code gives the value the interpreter gives for the form, signals the error it signals, leaves the same global variables, and does not stop when the interpreter does not stop; and the other way round.", "quantifier": "every program of the core language, every initial global environment, every meaning of the primitive instructions, any depth and number of steps", "why_tests_cant": "programs, closures and nesting of forms are unbounded; errors show only for particular combinations of shadowing, tail position and capture", "anchors": ["lisp/rep/vm/compiler/basic.jl: compile-form-1 compile-body compile-lambda", "lisp/rep/vm/compiler/bindings.jl: emit-varref emit-varset heap-binding-p", "lisp/rep/vm/compiler/inline.jl: compile-lambda-inline compile-tail-call", "lisp/rep/vm/compiler/lap.jl: allocate-bindings", "lisp/rep/vm/compiler/rep.jl: compile-case compile-cond compile-while compile-letrec", "src/lispmach.h: vm", "src/lisp.c: eval_lambda bind_lambda_list_1"]}
{"id": "C52", "title": "The stack sizes declared by compiled code suffice", "statement": "Running compiled code never puts more on the value stack or binding stack than the sizes the code declares, never takes from an empty stack, never jumps outside the code and never reads a slot before it is set.", "quantifier": "every program of the core language and every execution of it", "why_tests_cant": "overflow is undefined behaviour that need not show, and depends on nesting", "anchors": ["lisp/rep/vm/compiler/utils.jl: increment-stack decrement-stack", "lisp/rep/vm/compiler/basic.jl: assemble-assembly-to-form", "src/lispmach.h: vm inline_apply_bytecode"]}
{"id": "C53", "title": "expand-file-name keeps the file and simplifies the name", "statement": "expand-file-name returns a name without dots, dot-dots (except at the start of a relative name) and repeated slashes, that denotes the same file as the name it is given, seen from the base directory; expanding again changes nothing, names that always denote the same file are expanded alike, names of the form ~user/rest denote rest in the home directory, and no name is written outside the buffer.", "quantifier": "all names and base directories, all trees of directories, all working directories, any size of the buffer", "why_tests_cant": "names and directory trees are unbounded; the pointer loop over the buffer has many cases", "anchors": ["src/unix_files.c: rep_expand_file_name", "src/files.c: Fexpand_file_name Flocal_file_name", "lisp/rep/io/file-handlers/tilde.jl: tilde-expand tilde-file-handler"]}
{"id": "C54", "title": "The parts of file names fit together", "statement": "file-name-directory and file-name-nondirectory split a name in two; file-name-as-directory and directory-file-name denote what the name denotes and are inverse to each other; user-home-directory is as file-name-as-directory returns it.", "quantifier": "all names, all trees of directories", "why_tests_cant": "all combinations of slashes and empty parts", "anchors": ["src/unix_files.c: rep_file_name_directory rep_file_name_nondirectory rep_file_name_as_directory rep_directory_file_name file_part", "src/unix_main.c: rep_user_home_directory"]}
{"id": "C55", "title": "Canonical names and operations reach the named file", "statement": "canonical-file-name returns an absolute name of the same file, so that equal canonical names mean the same file; every operation on a file is done on the file that its expanded name denotes, also for names with a tilde.", "quantifier": "all names, all file systems, every correct realpath", "why_tests_cant": "depends on the tree of directories, on the default directory and on which operations the handler lists", "anchors": ["src/unix_files.c: rep_canonical_file_name", "src/files.c: rep_expand_and_get_handler rep_get_file_handler Fcanonical_file_name", "lisp/rep/io/file-handlers/tilde.jl: tilde-file-handler"]}
{"id": "C56", "title": "An obarray is a set of symbols with different names", "statement": "intern answers a symbol of the name asked for, the same one at each call until it is uninterned, different ones for different names; find-symbol finds exactly what was interned in that obarray; intern and unintern change nothing else, in that obarray or any other; apropos lists the matching symbols once each; no call reads invalid memory or loops.", "quantifier": "all sequences of calls, all names, any number of obarrays of any size", "why_tests_cant": "depends on the whole history of calls and on which names share a bucket", "anchors": ["src/symbols.c: Ffind_symbol Fintern_symbol Fintern Funintern Fapropos Fmake_symbol Fmake_obarray hash"]}
{"id": "C57", "title": "Property lists are a table from symbols and properties to values", "statement": "get answers the value that was put last for that symbol and property (equal properties if they are not symbols), nil when there is none; put changes no other property and no other symbol; a restricted environment gives no access to property lists.", "quantifier": "all sequences of put, all property lists that end", "why_tests_cant": "lists of any length and any sharing of cells", "anchors": ["src/symbols.c: Fget Fput Fsetplist Fsymbol_plist"]}
{"id": "C58", "title": "Keywords and generated symbols are identified by their names", "statement": "make-keyword answers the same keyword exactly for symbols of the same name, named #: and that name, and marks it as a keyword; symbols made by gensym have names that no other symbol has.", "quantifier": "all symbols in all states reached by careful calls, all numbers of calls up to 2^31-1", "why_tests_cant": "depends on all earlier calls and on which names share a bucket", "anchors": ["src/symbols.c: Fmake_keyword Fkeywordp Fgensym"]}
{"id": "C59", "title": "Timestamps stand for instants", "statement": "fix-time keeps the instant of a timestamp and leaves less than a day of seconds; time-later-p compares instants; seconds->time and time->seconds are inverse to each other; time- is the distance of two instants.", "quantifier": "all timestamps (any days, any seconds, both signs)", "why_tests_cant": "the interesting inputs are all pairs of integers, in particular those with carries and borrows between days and seconds", "anchors": ["src/misc.c: Ffix_time Ftime_later_p", "src/rep_lisp.h: rep_GET_TIME", "lisp/rep/util/time.jl"]}
{"id": "C60", "title": "Days are counted as in the Gregorian calendar", "statement": "The number that is computed for a date is the number of days from 1970-01-01, counted one by one with the months' lengths and leap years; every date is counted; the name of the day is the right one; the timestamp of a date, a time and a zone is the instant meant.", "quantifier": "all dates, all times, all zones", "why_tests_cant": "a closed formula with rounding is compared to counting days over all years", "anchors": ["lisp/rep/util/date.jl: parse-date 204-238"]}
{"id": "C61", "title": "Written dates are read as what they say", "statement": "parse-date reads every date written as in RFC 822, as by current-time-string or as in ISO 8601 to the fields and the instant that it says, with any blanks, full or short names, optional parts and any zone; it ends on every text.", "quantifier": "all texts of these grammars; all texts for ending", "why_tests_cant": "the grammars are infinite and the regular expressions are tried one after the other on every place of the text", "anchors": ["lisp/rep/util/date.jl: parse-date"]}
{"id": "C62", "title": "Arrays keep what is stored in them", "statement": "An element of a string or vector is what the last aset said about it; aref and aset signal for every index outside of the array and never touch other memory; vector, make-vector, make-string and copy-sequence return new arrays with the elements asked for and change nothing else.", "quantifier": "all heaps, all arrays (also aliased), all histories of stores, all indices and sizes", "why_tests_cant": "histories are unbounded and lengths go beyond what a test allocates", "anchors": ["src/lispcmds.c: Faset Faref Flength Fmake_vector Fvector Fmake_string Fcopy_sequence Felt", "src/values.c: rep_make_vector rep_make_string"]}
{"id": "C63", "title": "Parts and sums of strings", "statement": "substring is the part between two places or an error; concat is the characters of its arguments in order; a string is the concatenation of its parts at any place; mapconcat is the results with the separator between each two.", "quantifier": "all strings, lists and vectors as arguments, all places", "why_tests_cant": "all lengths and mixtures of arguments", "anchors": ["src/lispcmds.c: Fsubstring Fconcat", "lisp/rep/data/string-util.jl: mapconcat"]}
{"id": "C64", "title": "Comparisons of strings are an order", "statement": "string-head-eq tells whether a string begins with another; string-equal is an equivalence that ignores letter case; string-lessp is a strict order of its classes, and of two strings one is less or they are equal, in every locale.", "quantifier": "all strings, all locales", "why_tests_cant": "transitivity and trichotomy are about all triples of strings", "anchors": ["src/lispcmds.c: Fstring_head_eq Fstring_equal Fstring_lessp"]}
{"id": "C65", "title": "Completing and translating strings", "statement": "complete-string returns as much of the first match as all matches begin with; completing again changes nothing; translate-string replaces every character by the table's; string-upcase, string-downcase and capitalize-string return new strings and leave their argument alone; the case predicates say what they should.", "quantifier": "all strings, all lists of candidates, all tables", "why_tests_cant": "the longest common beginning is a maximum over all candidates", "anchors": ["src/misc.c: Fcomplete_string Ftranslate_string", "lisp/rep/data/string-util.jl"]}
{"id": "C66", "title": "XML text is read as what it says", "statement": "read-xml-item returns the item that the text says, with entities replaced by what they stand for, whatever white space and quotes are used, and takes no more than its text; reading always ends; elements that are not ended, or ended by another name, are refused.", "quantifier": "all texts of the grammar, nested to any depth, all continuations; termination for all texts", "why_tests_cant": "nesting, white space, entities and continuations combine without bound", "anchors": ["lisp/rep/xml/reader.jl: read-xml-item read-tag-body read-param-list read-quoted-token substitute-entities"]}
{"id": "C67", "title": "What print-xml-item prints is read back", "statement": "Printing an item and reading the text gives the same item.", "quantifier": "all items, of any depth", "why_tests_cant": "round trips are about all items", "anchors": ["lisp/rep/xml/printer.jl: print-xml-item print-params substitute-entities"]}
{"id": "C68", "title": "Non-local exits do what the manual says", "statement": "catch returns the value thrown to its tag and lets everything else pass; unwind-protect runs its cleanup once, after its form, however the form ends, and does not change how it ends unless the cleanup itself exits; condition-case gives an error to its first matching handler, with the variable bound to the error, and lets throws and unmatched errors pass; an exit on its way runs the cleanups between, innermost first.", "quantifier": "all programs of constants, variables, setq, let, progn, if, calls of arbitrary functions, throw, catch, unwind-protect, condition-case, nested to any depth; all states; all behaviours of the functions called", "why_tests_cant": "exits, cleanups and handlers combine without bound, and cleanups and handlers may exit themselves", "anchors": ["lisp/rep/lang/interpreter.jl: call-with-catch call-with-unwind-protect call-with-error-handlers", "src/lispcmds.c: call-with-exception-handler raise-exception"]}
{"id": "C69", "title": "Compiled non-local exits agree with interpreted ones", "statement": "Compiled, a program with catch, throw, unwind-protect and condition-case ends as it does interpreted, with the same effects, and leaves the machine's stacks as they were.", "quantifier": "all such programs, all states, all behaviours of the functions called, at every address, with every stack and set of bindings", "why_tests_cant": "handlers unwind stacks whose depth depends on the whole program", "anchors": ["lisp/rep/vm/compiler/rep.jl: compile-catch compile-unwind-pro compile-condition-case", "src/lispmach.h: OP_CATCH OP_THROW OP_BINDERR OP_ERRORPRO OP_EJMP error:", "src/lisp.c: rep_compare_error"]}
{"id": "C70", "title": "A hook runs its functions, also while they change it", "statement": "add-hook, remove-hook, remove-hook-by-name and in-hook-p treat each hook as its own list of functions; call-hook calls every function that stays in the hook once, in order, until an answer ends the run, calls nothing that was never in it, and returns the last answer, whatever the functions do to this and other hooks meanwhile.", "quantifier": "all hooks, all sequences of changes, all behaviours of the functions (adding, removing, running hooks, exiting), all types of call", "why_tests_cant": "functions change the list, in place, that is being walked, and may run hooks themselves", "anchors": ["src/lispcmds.c: call-hook delete nconc", "lisp/rep/system.jl: add-hook remove-hook remove-hook-by-name in-hook-p"]}
{"id": "C71", "title": "macroexpand gives the expansion, also from its memory", "statement": "macroexpand expands its form until it is no longer a call of a macro; a form that was expanded before, with the same first answer, and still stands gives the same expansion; no macro function, collection or new cell in between makes the memory answer for another form.", "quantifier": "all forms, all macro functions (reading, allocating, collecting, expanding in turn, failing), all states of the memory", "why_tests_cant": "the memory is keyed by addresses, collections happen inside macro functions, and addresses are used again", "anchors": ["src/macros.c: macroexpand macroexpand-1", "src/values.c: garbage-collect"]}
{"id": "C72", "title": "A memoized function gives the answers of the function", "statement": "Calling a memoized function gives what the function itself gives for equal arguments, in any sequence of calls including those made by the function on itself, and a non-nil answer is computed only once.", "quantifier": "all functions, all sequences of argument lists, all hash collisions", "why_tests_cant": "the answer depends on the whole history of calls", "anchors": ["lisp/rep/util/memoize.jl: memoize memoize-function", "src/tables.c: table-ref table-set"]}
{"id": "C73", "title": "The origin of a form is where it was read", "statement": "lexical-origin gives the file and line that were recorded for a form, or for the first of its elements that has one, whatever was read, changed, collected and allocated in between; a new list in the place of a collected one never has the origin of the old one, and the origins of collected forms are thrown away.", "quantifier": "all forms, all sequences of reading, allocating, changing, collecting and running the after-gc hook, all choices of what is still live", "why_tests_cant": "origins are keyed by addresses that are used again after a collection", "anchors": ["src/origin.c: lexical-origin record_origin origin-after-gc", "src/values.c: guardians"]}
{"id": "C74", "title": "The syntax that is built by macros means what the manual says", "statement": "if, when, unless, or, and, case, let, let*, letrec, named let, prog1, prog2, while and do do exactly what their descriptions say: which subforms are evaluated, how often, in what order, in what scope, with which value or exit at the end, and they run for ever in exactly the cases where the description does; the symbols the expansions introduce can not be seen or changed by the program.", "quantifier": "all forms, all environments without local bindings of the standard names, all states, all primitives and worlds they act on, all lengths of lists and numbers of iterations", "why_tests_cant": "each construct is a macro; its expansion is evaluated in the scope of the program with hidden variables, and any nesting of the constructs can occur in the subforms", "anchors": ["lisp/rep/lang/interpreter.jl: let let* letrec if case when unless or and do while prog1 prog2", "src/lisp.c: Feval Fprogn", "src/lispcmds.c: Fcond Fquote", "src/symbols.c: Fsetq"]}
{"id": "C75", "title": "Records and data objects keep what was put in them, and types keep them apart", "statement": "Every program that makes record types and data objects, makes records with either kind of constructor, and reads, changes and asks about them sees exactly what the description says: named fields get the arguments and the others nil, an accessor gives what was last put in that field of that record, a modifier changes nothing else, a predicate holds just for the records of its type even if another type has the same name and fields, and what does not apply is an error that changes nothing.", "quantifier": "all programs (sequences of calls of any length whose operands are constants or earlier results), all field lists, all lambda lists", "why_tests_cant": "records are shared, types can have equal names, fields repeat, constructors take any lambda list", "anchors": ["lisp/rep/data/records.jl: make-record-type field-index record-constructor make-record-constructor record-accessor record-modifier record-predicate define-record-type", "src/datums.c: Fmake_datum Fdatum_ref Fdatum_set Fhas_type_p rep_eol_datum"]}
{"id": "C76", "title": "A trie is a set of words, and its parts are views of it", "statement": "Every program that makes tries, inserts strings, looks up parts and inserts there, asks for strings and lists them gets the answers of sets of words: a string is contained exactly when it was inserted, insertion into one trie or part changes no other, there is a part below a string exactly when a word starts with it, and trie-foreach ends and gives each word exactly once.", "quantifier": "all programs (sequences of calls of any length), all strings", "why_tests_cant": "nodes are lists changed in place and shared between a trie and its parts", "anchors": ["lisp/rep/data/trie.jl: node-ref node-set! trie-ref trie-insert-1! trie-insert! trie-insert-string! trie-string-ref trie-contains-string? trie-foreach"]}
{"id": "C77", "title": "Folding of constants by the compiler keeps the meaning of the program", "statement": "The form that is compiled (after folding calls of the listed functions with constant arguments and replacing constants by their values) gives the same value or error and the same effects as the form of the program in every environment and state; when the compiler stops with an error, the form contains a call that is an error whenever it is evaluated.", "quantifier": "all forms of any depth, all environments and states, all meanings of the functions under which the listed functions are pure, all constants", "why_tests_cant": "folding happens at any depth, through macro calls, in any scope, and the value is computed at another time than the program runs", "anchors": ["lisp/rep/vm/compiler/src.jl: foldablep fold-constants quote-constant source-code-transform", "lisp/rep/vm/compiler/utils.jl: compiler-constant-p compiler-constant-value", "lisp/rep/vm/compiler/basic.jl: compile-form-1", "lisp/rep/vm/compiler/rep.jl: constant-functions"]}
{"id": "C78", "title": "load takes the file its documentation names, and calls what was registered exactly once", "statement": "For every file system, load-path, dl-load-path, pair of suffixes and flags: load takes a file of the first directory of load-path that has a readable candidate, in it FILE.jlc unless FILE.jl was modified later (FILE alone with NO-SUFFIX, only FILE.jl in interpreted mode), then a shared library by the same rule, and otherwise reports the file as missing. After loading, each thunk registered by call-after-load for that library is called exactly once, the last registered first, and no other; thunks may register more.", "quantifier": "all file systems, modification times, paths, suffixes, flags; all registrations and all thunks that register further ones", "why_tests_cant": "the variable holding the candidate is not reset between suffixes and directories; thunks change the list that is being served", "anchors": ["src/lispcmds.c: load load_file_exists_p", "src/files.c: rep_file_newer_than", "lisp/rep/io/files.jl: call-after-load"]}
{"id": "C79", "title": "require, provide and open load each file once, end, and change only the structure that asks", "statement": "For all sets of files in which each file is one structure of its name or bare code that first provides its feature, and all programs of provide, require, open, access, structure definitions and aliases: a module is loaded at most once and bare code at most once into each structure, also in programs that do not end or fail; if bare code makes no structures every program ends, though files require and open each other in circles; what was required needs no further load whatever happens in between; with modules only, a program changes no structure but its own and new ones.", "quantifier": "all sets of files (any contents), all programs, all worlds to start in, all executions including unfinished ones", "why_tests_cant": "the order in which files load each other depends on what was loaded before; circles through several files; a structure is visible before it is finished", "anchors": ["src/structures.c: featurep provide require intern-structure open-structures access-structures make-structure name-structure get-structure", "src/lispcmds.c: load-file"]}
{"id": "C80", "title": "Objects answer messages by single inheritance, with self the receiver", "statement": "For all objects made by object each after its base, all programs of literals, parameters, captured variables, assignments, sequences and messages, in which the keyword #:self does not occur: the program gives a value or error and leaves the captured variables exactly if the rules of single inheritance say so: a method is the object's own or that of the nearest base, its parameters have the arguments by place (missing ones nil, the rest parameter what is left), self is the object that the message was sent to however far away the method was found, unknown messages are refused; passing on ends after at most as many steps as there are objects.", "quantifier": "all lists of objects, all method bodies, all programs, environments and stores; both directions, any depth of calls", "why_tests_cant": "dynamic dispatch through self from inherited methods; unbounded chains of bases and recursion", "anchors": ["lisp/rep/data/objects.jl: object-lambda object make-let-bindings", "src/lisp.c: bind_lambda_list_1"]}
{"id": "C81", "title": "floor, ceiling, truncate and round give the integer of their name; parts, abs, lcm and parity are right", "statement": "floor, ceiling, truncate and round return integers as they are; for rationals between -2^53 and 2^53 truncate is right, floor for non-negative ones, ceiling for non-positive ones, both also for the other sign if the numerator is at most 2^52 and the denominator at most 2^1000, round (halves to even) if both are at most 2^50, all in the only representation of the result; numerator and denominator of a rational are coprime, the denominator positive, their quotient the rational; abs of bignums, rationals and fixnums below 2^30 is the absolute value; lcm of two such integers, not both 0, is the least common multiple; evenp and oddp tell parity of every integer.", "quantifier": "all rationals in the ranges named, all integers", "why_tests_cant": "the results are computed through doubles and wrong only where 53 bits do not suffice; no table of examples shows where", "anchors": ["src/numbers.c: Ffloor Fceiling Ftruncate Fround Fnumerator Fdenominator rationalize Fgcd", "lisp/rep/lang/math.jl: abs lcm oddp evenp"]}
{"id": "C82", "title": "getenv, setenv and unsetenv treat the environment as a map of names", "statement": "For all environments of strings and all names without =: getenv gives the value of the first entry NAME=VALUE, or nil if there is none; after setenv the name has the value given, after unsetenv it has none even if it had several entries; every other name keeps its value and its entries, also names that have the name as a prefix or that a regular expression made of it would match; a new process sees the same values.", "quantifier": "all environments, all names up to 6550 bytes whatever special characters they contain, all values", "why_tests_cant": "names are turned into regular expressions; a test sees a few names only", "anchors": ["lisp/rep/system/environ.jl: getenv setenv unsetenv", "src/unix_main.c: rep_sys_os_init", "src/unix_processes.c: child_build_environ"]}
{"id": "C83", "title": "cgi-get-params gives the names and values that a query string was made from", "statement": "For all lists of names and values and all ways to write them as NAME=VALUE&NAME=VALUE (any choice of characters written as % with two hexadecimal digits of either case, spaces as + or not): cgi-get-params gives those names and values in order, the empty value as nil; no query has two meanings.", "quantifier": "all lists of parameters, all byte strings as values, all choices of escapes; any length", "why_tests_cant": "arbitrary lengths and mixtures of escapes; the state of the matcher is shared between the calls", "anchors": ["lisp/rep/www/cgi-get.jl: cgi-get-params unquote hexdigit", "src/misc.c: translate-string"]}
{"id": "C84", "title": "realpath gives one canonical path per file", "statement": "For all file systems, current directories and names: a result of realpath is absolute, has no dots and no symbolic link in it and is the file that the kernel finds under the name; a file that the kernel finds over at most MAXSYMLINKS links is found, given space; the real path of a result is itself; two names of one file have the same one.", "quantifier": "all file systems (any depth, any links), all names; any number of steps", "why_tests_cant": "links to links, dots after links, loops and absolute targets in any combination", "anchors": ["src/realpath.c: realpath", "src/unix_files.c: rep_canonical_file_name"]}
{"id": "C85", "title": "Code in a restricted special environment neither changes nor learns variables declared by trusted code", "statement": "For all programs (any sequence of defvar, symbol-value, default-value, set, set-default, makunbound, boundp, put, setplist, get, make-variable-special, let and calls, depending on earlier answers) run in structures whose special environments lack a variable that trusted code declared with defvar: the variable's value, dynamic bindings, flags and properties stay, results do not depend on its value, and no code can undo the protection. A variable first declared in restricted code is usable there, and belongs to trusted code once that declares it.", "quantifier": "all adaptive programs, all states, all numbers of structures and nested bindings", "why_tests_cant": "the attacker may be any program; tests can only try some", "anchors": ["src/symbols.c: defvar symbol-value default-value set set-default setplist put get make-variable-special rep_bind_special search_special_environment", "src/structures.c: rep_get_initial_special_value", "lisp/rep/util/gaol.jl: make-gaol", "lisp/rep/vm/compiler/rep.jl: trans-defvar"]}
{"id": "C86", "title": "Values passed through the foreign function interface arrive", "statement": "For every type made with ffi-struct from the primitive types (to any depth), every value in range and every memory: what ffi-set! writes ffi-get reads; no byte outside the type changes; when the C layout has no padding, a C program sees every field at its place in the C ABI, and ffi-apply hands each argument over inside its buffer; elements of an array are inside the memory of ffi-new and independent; structures have equal ids exactly if they have equal fields, and making types does not change existing ones.", "quantifier": "all types, values, memories, addresses, table histories", "why_tests_cant": "types nest arbitrarily and layouts depend on the combination of fields; a wrong byte shows only in foreign code", "anchors": ["src/ffi.c: rep_ffi_marshal rep_ffi_demarshal ffi-struct ffi-type ffi_types_equal_p ffi_alloc_type ffi-interface ffi-apply ffi-new ffi-address-of ffi-set! ffi-get", "src/numbers.c: rep_get_long_int rep_get_long_uint"]}
{"id": "C87", "title": "Command line options are found wherever they stand, once each, and the rest stays in order", "statement": "For every list of arguments: an option is reported absent exactly when no word is its name or its name with an equals sign, and then nothing changes; on a line where no value or other word looks like an option that is asked for, every option has its value in either form, independently of the order of the questions, and the remaining words are those not asked for in their order; asking repeatedly gives the values of a repeated option in order and then nothing; functions are called and files loaded in the order of the line, each seeing exactly the words after its own, until --quit or an error, wherever the flags of the start stand.", "quantifier": "all command lines, all sets and orders of questions, all option names, all behaviours of the code called", "why_tests_cant": "lines combine arbitrarily many options in arbitrary order, and each answer changes the list that later questions see", "anchors": ["src/main.c: rep_get_option get_main_options", "src/misc.c: get-command-line-option", "src/lispcmds.c: delq", "lisp/rep/user.jl: parse-options"]}
{"id": "C88", "title": "Domain names are ordered by their labels", "statement": "For all strings: domain-parts are the labels between the dots; domain-above is the name after the first dot, and no other name lies between; domain-above-p and domain-below-p hold exactly if the longer name ends in a dot and the shorter, so they are a strict order and its converse; map-domains calls the function once with the name and with each name above it, the longest first, and map-domains-downwards in the opposite order.", "quantifier": "all names of any length and number of labels, all match data left by earlier matches and by the function", "why_tests_cant": "names have any number of labels, empty ones included; the functions rest on the regular expression matcher", "anchors": ["lisp/rep/net/domain-name.jl: domain-parts domain-above compare-domains domain-above-p domain-below-p domain-equal-p map-domains map-domains-downwards", "lisp/rep/regexp.jl: string-split", "src/find.c: string-match"]}
{"id": "C89", "title": "Input handlers are called for the right descriptors, once, and none is missed", "statement": "In every execution of the event loop: a handler is called only while it is the one registered for its descriptor; in one turn each ready descriptor is called at most once, in ascending order, and only descriptors registered at the start; what is marked pending or reported by select is called unless its registration is changed in the same turn or an exception intervenes; an exception loses no pending mark and the counter of marks stays exact; waiting for given descriptors or callbacks serves no others; sit-for ends, waits no longer than told, and waits exactly that long and returns t when nothing happens; the uninitialised descriptor set is never read.", "quantifier": "all sequences of registering, marking, waiting and turns, all reactions of callbacks and other threads, all answers of select that report members of the set and their number, all timeouts, any number of descriptors", "why_tests_cant": "depends on what the kernel reports and on what callbacks do to the tables while these are walked", "anchors": ["src/unix_main.c: rep_register_input_fd rep_deregister_input_fd rep_mark_input_pending wait_for_input handle_input rep_event_loop rep_sit_for rep_accept_input_for_callbacks rep_accept_input_for_fds rep_poll_input rep_proc_periodically", "src/misc.c: sit-for"]}
{"id": "C90", "title": "Messages of remote procedure calls arrive whole, in order and as soon as they are complete, however the text is cut", "statement": "For every sequence of messages (lists of numbers, strings, symbols, pairs and vectors that can be read back) whose printed texts are written to a socket one after another, and every way in which the text is cut into pieces: the messages are dispatched exactly once, in order, unchanged; at every moment all messages that have arrived completely have been dispatched and what is kept is a beginning of the next one; the handler may be entered again from inside, while a message is worked on; a beginning of a message is neither taken for a message nor for an error.", "quantifier": "all sequences of messages of any size and depth, all cuts into pieces, all patterns of reentrant delivery, all three modes of escaping", "why_tests_cant": "the kernel cuts the stream as it likes; there are exponentially many cuts and reentrant orders", "anchors": ["lisp/rep/net/rpc.jl: rpc-output-handler invoke-method invoke-oneway-method", "src/lisp.c: readl read_list read_symbol read_str", "src/streams.c: read"]}
{"id": "C91", "title": "Every answer of a remote procedure call reaches the callback of its call, once", "statement": "In every execution of a program that makes calls and receives anything from anybody: a callback is called at most once for a call, only for its own call, with what a received result says; the first result for a waiting call on a known connection calls its callback at once; other results call nothing. In every execution of a client and a server: calls are taken in the order in which they were made; a callback gets the outcome of the servant applied to the arguments sent, an unknown servant giving an error; when nothing is under way every call has been answered exactly once and none is remembered, and this state is always reachable without new calls.", "quantifier": "all sequences of calls, results, losses and registrations; all interleavings of two programs, all outcomes, any number of calls under way or at work at the same time", "why_tests_cant": "interleavings of two programs with any number of calls in flight, answers out of order, twice, or never asked for", "anchors": ["lisp/rep/net/rpc.jl: make-call-id record-pending-call dispatch-pending-call register-rpc-server deregister-rpc-server rpc-output-handler invoke-method invoke-oneway-method asynchronous-method-call"]}
{"id": "C92", "title": "Files on other machines arrive as they were sent, however the pipe cuts them", "statement": "Between rep-remote and its client: numbers below 2^32 and commands with any arguments are read as they were written; a file that is got is at every moment written as far as it has arrived, success is said exactly when it is complete; links, directories with records of any bytes and messages of failed commands are understood in whatever pieces they come, exactly when they are complete; names are read back by the Lisp reader; a file that is put is written whole and nothing behind it is taken.", "quantifier": "all files, links, records and messages of less than 2^32 bytes, all arguments without zero bytes, all ways of cutting the answers into pieces, all sizes of buffers", "why_tests_cant": "the ways in which a pipe can cut an answer; contents that look like the protocol", "anchors": ["src/rep-remote.c: send_long read_long send_string read_string quote_string do_get do_put do_readdir main", "lisp/rep/io/file-handlers/remote/rep.jl: remote-rep-read-length remote-rep-read-string remote-rep-output-filter remote-rep-get remote-rep-read-symlink remote-rep-dircache-callback"]}
{"id": "C93", "title": "A remote session's word about a file is less than a minute old, and newer than its own changes", "statement": "After any events, a look at a file on another machine is answered as its directory is now, or as it was when it was read less than sixty seconds ago, since when the session's own commands have not invalidated the directory and the cache has not been emptied; so when nobody else changes the directory and the commands that change it invalidate it, every answer is true now. No directory is in the cache twice.", "quantifier": "all sequences of looks, own commands, other people's changes and emptyings of the cache, all times between them, all contents of the directories", "why_tests_cant": "histories of any length with other people's changes at any moment", "anchors": ["lisp/rep/io/file-handlers/remote/rep.jl: remote-rep-get-file remote-rep-dir-cached-p remote-rep-invalidate-directory remote-rep-empty-cache"]}
{"id": "C94", "title": "position ends on every list, circular ones too, and gives the first place", "statement": "In a finite heap, for a list that ends in anything or runs into a circle behind a tail of any length, position ends; it gives the least place whose car equals the item, or #f when no place of the list, however far one follows it, holds the item. option-index gives the first place of an option; remove-newlines puts a space for each newline and changes nothing else.", "quantifier": "all finite heaps, all lists in them; all lists of options; all strings", "why_tests_cant": "circles of any length behind tails of any length, with the item anywhere", "anchors": ["lisp/rep/util/misc.jl: position option-index remove-newlines"]}
{"id": "C95", "title": "Replies of the ftp program are understood line by line, however they are cut", "statement": "For lines that are not preceded by a prompt or hash marks, do not begin like a question for a password and do not end the session: at every moment the lines that have come whole, and no others, have been acted upon, in order and each once, and what has come of the next is kept; the status is that of the last line that says success or failure; so the way in which the output is cut makes no difference.", "quantifier": "all texts of lines, all classifications of lines, all ways of cutting them into pieces", "why_tests_cant": "the ways in which a pipe can cut the output", "anchors": ["lisp/rep/io/file-handlers/remote/ftp.jl: remote-ftp-output-filter"]}
{"id": "C96", "title": "The documentation written in sources arrives in the database", "statement": "Of sources in which every block of documentation has its marks on lines of their own and fits the buffers, each block is stored whole under its name, its lines with newlines between them; after all files each name has the text of its last block, and names that do not occur keep what they had.", "quantifier": "all sources made of lines of code and blocks, all numbers of files, all sizes of the buffers, all databases", "why_tests_cant": "where buffers end and which of several blocks remains", "anchors": ["src/repdoc.c: scanfile, main"]}
{"id": "C97", "title": "Typing a closing bracket shows the one that it closes", "statement": "When a closing bracket is typed behind an opening one and text in which the brackets of its kind are balanced, not counting those in strings and character literals, the cursor is shown on that opening bracket and is behind the new one afterwards; when nothing is open nothing is shown; whatever the text, only an opening bracket of the same kind that is not a character literal is shown.", "quantifier": "all lines, all balanced texts of any depth, the three kinds of brackets", "why_tests_cant": "nesting, strings with escapes and literals together", "anchors": ["src/readline.c: find_matching_paren, match_paren"]}
{"id": "C98", "title": "The strings to be translated arrive in the file of messages", "statement": "Of all strings that a scan registers, in whatever files and however often, the file of messages holds each once, in the order in which they were first met, with every file where it is and each of these once; and every string, with whatever newlines, quotes and backslashes, is read back from its lines as itself.", "quantifier": "all sequences of registrations, all strings of bytes", "why_tests_cant": "combinations of escapes with the cutting of lines", "anchors": ["lisp/rep/i18n/xgettext.jl: register, output-strings", "src/lisp.c: rep_string_print"]}
{"id": "C99", "title": "Calls to an object behind a thread are like calls one after the other", "statement": "However threads interleave their calls, asynchronous calls, fetches of results and deletion of the thread: what the thread has dealt with are the first messages sent, in order, with the state and the answers of calls one after the other; each caller gets the value or the exception of their own arguments, once; as long as the thread lives and no waiting asynchronous call raises an exception, serving answers every call; when it is dead nothing more is answered.", "quantifier": "all functions with a state that give values or exceptions, all interleavings of any number of callers", "why_tests_cant": "interleavings of threads", "anchors": ["lisp/rep/threads/proxy.jl: make-thread-proxy, thread-proxy-async-call, thread-proxy-delete"]}
{"id": "C100", "title": "The interactive interpreter finds commands and evaluates what was entered", "statement": "A command is found exactly when the name is its own, or is nobody's and abbreviates only that one; it is unknown exactly when it abbreviates none; after any definitions each name has its last one. Entries over any numbers of lines, of which all before the last leave a text that needs more, are each dealt with once and in order: forms are evaluated, commands run, errors reported; afterwards nothing is pending.", "quantifier": "all lists of commands, all names, all readers, all sequences of entries and ways of cutting them into lines", "why_tests_cant": "all ways of breaking forms over lines; sets of names that abbreviate each other", "anchors": ["lisp/rep/util/repl.jl: define-repl-command, find-command, repl-iterate, repl"]}
{"id": "C101", "title": "Each word gets its own answer from the spelling checker", "statement": "When the process answers every word in time with a line that is not empty and an empty line, each word checked gets its own answer, however the output is cut into pieces; a line is read whole and what is behind it is kept for the next.", "quantifier": "all answers, all numbers of words, all ways of cutting the output", "why_tests_cant": "the ways in which a pipe or pty can cut the output", "anchors": ["lisp/rep/util/ispell.jl: output-filter, ispell-read-line, ispell-word"]}
{"id": "C102", "title": "Listings of tar files are understood", "statement": "However the output of tar is cut, every line of it gives its entry, in order; the files of a directory are exactly the names directly in it, of files or of directories that hold something, each once; symbolic links are followed to what they lead to, exactly when they lead anywhere; the modes are those that the letters of the listing show.", "quantifier": "all listings, all ways of cutting them, all directories, all chains of links, all modes", "why_tests_cant": "ways of cutting output; chains of links of any length", "anchors": ["lisp/rep/io/file-handlers/tar.jl: tarfh-output-function, tarfh-get-file, tarfh-directory-files, tarfh-lookup-file, tarfh-file-get-modes"]}
{"id": "C103", "title": "Autoloaded definitions are as if they had been there", "statement": "A reference to a symbol for which an autoload was installed gives the definition of the module, one to a symbol without gives the last definition by the program; a module is loaded at most once, and only for a reference to a symbol that it was named for before; installing an autoload does not replace a definition.", "quantifier": "all modules, all sequences of autoloads, definitions and references", "why_tests_cant": "any interleaving of autoloads, definitions and references", "anchors": ["lisp/rep/util/autoloader.jl: make-autoloader, autoloader-ref", "src/structures.c: Fintern_structure"]}
{"id": "C104", "title": "Functions over lists call once for each element, in order, and leave at once", "statement": "For functions with any effects, mapcar, mapc, filter, remove-if and remove-if-not make one call for each element, in order, and give the results, nil, or the elements with true or false answers in their order; when a call leaves, so do they, with its effects and no further calls; member-if and assoc-regexp make no calls behind the first true answer.", "quantifier": "all lists, all functions with effects and exits", "why_tests_cant": "order and number of calls with effects; exits at any place", "anchors": ["src/lispcmds.c: Fmapcar, Fmapc, Ffilter", "lisp/rep/data.jl: assoc-regexp, member-if, remove-if, remove-if-not"]}
{"id": "C105", "title": "Files of libtool say which library to open", "statement": "What is read from a .la file is what its lines say: the library is the last one that is named, in the directory of the file; it is opened globally when a line says so; every required module is loaded, in order, before the library, and when one does not load nothing behind it is asked for and the library is not opened.", "quantifier": "all files whose lines are shorter than 255 bytes, all names, all modules", "why_tests_cant": "lines of any content in any order, any number of required modules", "anchors": ["src/unix_dl.c: load_requires, rep_intern_dl_library"]}
