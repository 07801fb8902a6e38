{
 "claims": [
  {
   "property": "C01",
   "status": "proved",
   "theorems": [
    "C01_table_is_map",
    "C01_incompatible_hash_refuted"
   ],
   "note": "For every sequence of sets and unsets the table agrees with the specification map, for an equivalence and a compatible hash; shown false for an incompatible hash."
  },
  {
   "property": "C02",
   "status": "proved",
   "theorems": [
    "C02_size_and_walk",
    "C02_walk_stops_on_error_refuted",
    "C02_load_factor"
   ],
   "note": "Size and walk proved for every table; the load stays below two per bucket; a walk whose function fails is shown to go on with the next bucket."
  },
  {
   "property": "C03",
   "status": "partial",
   "theorems": [
    "C03_same_value_hash",
    "C03_equal_hash_partial",
    "C03_equal_hash_refuted",
    "C03_hash_is_fixnum",
    "C03_hash_positive_refuted"
   ],
   "note": "Proved for canonical numbers with fixnums below 2^30; refuted outside (fixnums 2^32 apart are equal with different hashes; equal-hash can be negative)."
  },
  {
   "property": "C04",
   "status": "proved",
   "theorems": [
    "C04_page_history",
    "C04_page_split"
   ],
   "note": "Every history of insertions and deletions on a page, lookups, enumeration, free space, splitting, and no write outside the 1024 bytes."
  },
  {
   "property": "C05",
   "status": "partial",
   "theorems": [
    "C05_history_partial",
    "C05_defined_partial",
    "C05_big_directory_refuted"
   ],
   "note": "Every history of store, fetch, delete, walk and reopen while the directory file fits in one 4096-byte block, including when a store may fail; refuted for larger directories (stale directory buffer)."
  },
  {
   "property": "C06",
   "status": "partial",
   "theorems": [
    "C06_single_write_partial",
    "C06_damage_confined_partial",
    "C06_crash_refuted"
   ],
   "note": "Calls that write at most one block leave the old or the new map at every crash point; for a splitting store the pairs that can be lost all lay on one page; that they can be lost is shown by C06_crash_refuted."
  },
  {
   "property": "C07",
   "status": "partial",
   "theorems": [
    "C07_failed_store_partial",
    "C07_failed_replace_refuted"
   ],
   "note": "Failed insertions and rejected stores change nothing; a failed replacing store loses the old value (refuted)."
  },
  {
   "property": "C08",
   "status": "proved",
   "theorems": [
    "C08_queues_fifo",
    "C08_list_is_snapshot_refuted",
    "C08_dequeue_keeps_lists"
   ],
   "note": "Every sequence of queue operations on any number of queues behaves as FIFO sequences; queue->list is shown not to be a snapshot (it shares cells), dequeue leaves earlier lists intact."
  },
  {
   "property": "C09",
   "status": "proved",
   "theorems": [
    "C09_ring_keeps_last",
    "C09_contents_meaning",
    "C09_negative_depth_refuted"
   ],
   "note": "Every sequence of operations on rings of any capacity >= 1; negative depths are shown to give wrong elements."
  },
  {
   "property": "C10",
   "status": "proved",
   "theorems": [
    "C10_sort_stable",
    "C10_sort_permutation"
   ],
   "note": "Stable sort for every strict weak order; for any predicate the result is a permutation. Predicate pure; list length not limited to C int."
  },
  {
   "property": "C11",
   "status": "proved",
   "theorems": [
    "C11_decode_encode",
    "C11_encoded_text",
    "C11_decode_ignores_others",
    "C11_decode_meaning",
    "C11_padding"
   ],
   "note": "Round trip, line length, alphabet, padding and the numeric meaning of decoding any text."
  },
  {
   "property": "C12",
   "status": "proved",
   "theorems": [
    "C12_print_read_string",
    "C12_escape_all_ascii",
    "C12_newlines_escaped"
   ],
   "note": "Round trip for every byte string in every printing mode; escape-all output is ASCII; newline escaping."
  },
  {
   "property": "C13",
   "status": "partial",
   "theorems": [
    "C13_add",
    "C13_sub",
    "C13_plus_list",
    "C13_minus_list",
    "C13_neg",
    "C13_inc_dec",
    "C13_mul_refuted",
    "C13_mul_partial",
    "C13_mul_overflow_always_wrong",
    "C13_product_list_partial",
    "C13_bitwise",
    "C13_ash_refuted",
    "C13_ash_partial",
    "C13_expt",
    "C13_vm_agrees"
   ],
   "note": "Exact for + - neg 1+ 1- logior logxor logand lognot expt on all exact numbers; * and ash are proved on the inputs where the 64-bit intermediate does not overflow, and refuted outside (C13_mul_refuted, C13_ash_refuted)."
  },
  {
   "property": "C14",
   "status": "partial",
   "theorems": [
    "C14_comparison_refuted",
    "C14_order_refuted",
    "C14_transitivity_refuted",
    "C14_comparison_partial",
    "C14_equality_partial",
    "C14_vm_comparison",
    "C14_max_min_partial",
    "C14_max_refuted",
    "C14_noteq_refuted"
   ],
   "note": "Bytecode comparisons proved for all exact numbers; the functions = < > <= >= eql equal max min proved where fixnum differences fit 32 bits and refuted outside."
  },
  {
   "property": "C15",
   "status": "partial",
   "theorems": [
    "C15_remainder",
    "C15_modulo",
    "C15_quotient_partial",
    "C15_division_law_partial",
    "C15_quotient_refuted",
    "C15_divide_partial",
    "C15_divide_refuted",
    "C15_divide_list_partial",
    "C15_div_zero",
    "C15_div_zero_list_refuted",
    "C15_gcd_partial",
    "C15_gcd_refuted"
   ],
   "note": "remainder and mod proved for all integers; quotient, / and gcd proved except at the least fixnum, where they are refuted; (/ 1 0 2) shown to kill the process."
  },
  {
   "property": "C16",
   "status": "partial",
   "theorems": [
    "C16_print_parse_partial",
    "C16_negative_hex_refuted",
    "C16_radix_refuted",
    "C16_parse_value"
   ],
   "note": "Round trip proved for radices 2, 8, 10, 16 except negative fixnums in radix 8/16, which are refuted; other radices abort."
  },
  {
   "property": "C17",
   "status": "partial",
   "theorems": [
    "C17_canonical_unique",
    "C17_canonical_refuted",
    "C17_neg_partial",
    "C17_add_sub_fixnum"
   ],
   "note": "Canonical results proved for + - 1+ 1- * / mod remainder quotient parse; refuted for neg, logand, gcd, expt."
  },
  {
   "property": "C18",
   "status": "partial",
   "theorems": [
    "C18_no_assertion_failure",
    "C18_schedule",
    "C18_operation_partial",
    "C18_history_partial",
    "C18_sorted_meaning",
    "C18_once_per_set",
    "C18_deleted_silent",
    "C18_delete_delays_refuted",
    "C18_set_early_refuted",
    "C18_set_delays_refuted",
    "C18_reset_called_anyway_refuted",
    "C18_race_refuted",
    "C18_negative_refuted"
   ],
   "note": "The clock and chain of timers.c with signals, blocking and the event loop. For every reachable idle state the calls of an idle program are exactly the pending timers at their times in order; operations leave the others' times alone when no time has elapsed since the itimer was started (exact effect otherwise); ideal behaviour for every history whose operations happen when some timer is called or none is waiting; at most one call per setting; no call after deletion. Refuted in general: elapsed time is ignored (others delayed, new timer early), a reset due timer is called anyway, a race takes one timer's signal for another's, negative periods block everything."
  },
  {
   "property": "C19",
   "status": "partial",
   "theorems": [
    "C19_refines",
    "C19_one_queue",
    "C19_sorted",
    "C19_order_is_time",
    "C19_deadline",
    "C19_running_partial",
    "C19_no_failure_partial",
    "C19_yield",
    "C19_turns",
    "C19_running_refuted",
    "C19_delete_outer_refuted",
    "C19_wake_runnable_refuted",
    "C19_wake_self_refuted",
    "C19_suspend_suspended_refuted",
    "C19_made_suspended_refuted"
   ],
   "note": "Proved for all histories: the linked queues refine a scheduler on lists, each live thread of a root in force is in exactly one queue and listed once, suspended queue sorted. The running thread is the head of the run queue only when no thread of an outer root is deleted, suspended or woken (C19_running_refuted gives the failing history); thread-wake of a runnable thread and thread-suspend of a suspended one fail assertions. Continuation capture itself and exit values are not modelled."
  },
  {
   "property": "C20",
   "status": "partial",
   "theorems": [
    "C20_exclusion_partial",
    "C20_obtain_partial",
    "C20_maybe_partial",
    "C20_queue_partial",
    "C20_hand_over_partial",
    "C20_no_error_partial",
    "C20_no_timeout_refuted",
    "C20_timed_out_refuted",
    "C20_abort_refuted",
    "C20_exclusion_refuted"
   ],
   "note": "Mutexes over the thread model, any interleaving at the granularity of without-interrupts. For every history of a disciplined program (a mutex is not obtained by its holder, released only by it) in one dynamic root in which no library suspend ends by timeout: exclusion, exact FIFO hand-over, maybe-obtain-mutex exact, no errors, a waiter implies a holder or a woken first waiter. Refuted otherwise: obtain-mutex without timeout gives up after 1 ms, a timed-out thread becomes owner or makes release-mutex abort, two threads hold one mutex."
  },
  {
   "property": "C21",
   "status": "partial",
   "theorems": [
    "C21_signal_partial",
    "C21_broadcast_partial",
    "C21_wait_end_partial",
    "C21_waiting_partial",
    "C21_signal_refuted",
    "C21_wakes_other_refuted"
   ],
   "note": "Condition variables used under their mutex. Without timeouts: signal takes the longest waiter, broadcast all, a wait ends only when chosen, no waiter is forgotten. Refuted with timeouts: a timed-out waiter swallows a later signal; that signal ends an obtain-mutex for a mutex another thread holds."
  },
  {
   "property": "C22",
   "status": "partial",
   "theorems": [
    "C22_order_partial",
    "C22_fetch_partial",
    "C22_any_partial",
    "C22_not_lost_partial",
    "C22_no_timeout_refuted",
    "C22_abort_refuted"
   ],
   "note": "Message ports on the same model. Without timeouts: messages are fetched in the order sent, each once, message-waiting-p exact, a queued message and a sleeping fetcher imply a runnable thread inside a call on the port. Refuted: message-fetch without timeout returns nil after 1 ms, and the message-send that follows aborts."
  },
  {
   "property": "C23",
   "status": "partial",
   "theorems": [
    "C23_jump_partial",
    "C23_route_unique",
    "C23_alternate_partial",
    "C23_valid_partial",
    "C23_invalid",
    "C23_callable_partial",
    "C23_never_broken_partial",
    "C23_nested",
    "C23_same_address_refuted",
    "C23_closed_crossed_refuted"
   ],
   "note": "Barriers, continuations, call/cc and invocation of src/continuations.c; of the stack only the barriers are modelled, each with its address. In all histories where no two barriers that matter share an address: out functions innermost first, then in functions outermost first, exactly for the barriers that differ; entering and leaving alternate; valid exactly while the root is active; continuation-callable-p exact; no undefined behaviour. Programs that only escape or re-enter from outside are always such. Refuted in general: two dynamic-winds at one stack address are taken for the same (in and out functions skipped), and a closed barrier can be crossed, after which a stale continuation stays valid. Errors in the functions of barriers are not modelled."
  },
  {
   "property": "C24",
   "status": "partial",
   "theorems": [
    "C24_dynamic_binding_partial",
    "C24_undone_partial",
    "C24_with_fluids_partial",
    "C24_with_fluids_refuted",
    "C24_leak_refuted",
    "C24_frame_refuted",
    "C24_let_fluids_refuted"
   ],
   "note": "Fluids, special variables, interpreter frames, the VM's binding stack with handlers and unwinding, call/cc used to escape. Every program given a meaning by the shallow-binding specification (all control paths, any nesting, data-dependent) behaves accordingly and the binding list is restored on each exit. Refuted where no meaning is given: with-fluids with a later non-fluid argument leaks its bindings, frames with 65536 lexicals drop a special binding, compiled let-fluids with a duplicate fluid differs from with-fluids. Not modelled: restricted special environments, buffer-local values, re-entrant continuations."
  },
  {
   "property": "C25",
   "status": "partial",
   "theorems": [
    "C25_interpreted_partial",
    "C25_compiled_partial",
    "C25_inlined_partial",
    "C25_agree_partial",
    "C25_missing",
    "C25_keywords_refuted",
    "C25_null_refuted",
    "C25_inlined_refuted",
    "C25_duplicate_refuted"
   ],
   "note": "bind_lambda_list_1, the argument instructions with compile-lambda-spec, and inlined lambda expressions. For all lambda lists, arguments and (stateful, failing) defaults: exact documented bindings and missing-argument errors, provided no value in the keyword part is itself a keyword of the lambda list (compiled: only of those without default; inlined: no excess arguments). Refuted otherwise: a value taken for a keyword, a null pointer as a parameter's value in compiled code, an inlined lambda with an excess argument binds the wrong ones, a duplicate parameter. #!optional-order errors are modelled but only used through well-formed lists."
  },
  {
   "property": "C26",
   "status": "partial",
   "theorems": [
    "C26_template_partial",
    "C26_quote_refuted",
    "C26_vector_refuted"
   ],
   "note": "backquote-process, backquote-listify and the functions expansions call. For every evaluator that treats quote, list, cons, list*, append, numbers and () as rep does, and all templates without vectors and nested backquotes: the expansion evaluates to the template's value, forms evaluated once and left to right, errors propagated. Refuted: a list that is a single spliced quoted constant expands to itself; any vector in a template is an error. Nested backquotes are modelled but only tested."
  },
  {
   "property": "C27",
   "status": "partial",
   "theorems": [
    "C27_deterministic",
    "C27_rewrite_partial",
    "C27_last_rewrite_partial",
    "C27_optimizer_partial",
    "C27_plain_partial",
    "C27_shared_cell_refuted",
    "C27_jtp_jpn_refuted",
    "C27_add_zero_refuted",
    "C27_unused_error_refuted",
    "C27_self_assignment_refuted",
    "C27_scm_test_refuted",
    "C27_equal_strings_refuted",
    "C27_terminates_refuted"
   ],
   "note": "All 32 rewrites and the last pass of peephole-optimizer, over a machine with opaque instructions given by an arbitrary semantics. Proved: every rewrite except listed applications keeps results, assignments, errors and non-termination of every program with distinct labels; so does the whole optimiser on runs without those applications, and unconditionally on programs without conditional jumps, string constants, setg and scm-test. Refuted: (if (if p (or a b) c) x y) is miscompiled (shared operand cell); jtp to jpn loses a value; (+ x 0), unused void variables and (setq x x) lose their errors; test-scm-f/scm-test of #f; equal strings become one; the optimiser does not terminate on a self-jump."
  },
  {
   "property": "C28",
   "status": "partial",
   "theorems": [
    "C28_assembled_partial",
    "C28_assembles",
    "C28_duplicate_label",
    "C28_long_program_refuted",
    "C28_large_integers_refuted",
    "C28_undefined_label_refuted",
    "C28_disassembler_partial",
    "C28_disassembler_refuted",
    "C28_stack_sizes_partial",
    "C28_stack_sizes_refuted"
   ],
   "note": "Assembler, instruction decoder, disassembler step and stack word are modelled for programs of any length. Partial: programs whose constants are equal but not identical and programs of 64 KB and more are excluded (both refuted: 2^32 and 2^33 are merged into one constant, jump addresses are kept modulo 65536), and the effects of the instructions themselves are not modelled here. Also refuted: undefined labels are not an error; the disassembler loses its place after (refn n) with n > 255; the stack word is wrong for functions needing 1024 or more stack slots."
  },
  {
   "property": "C29",
   "status": "partial",
   "theorems": [
    "C29_nreverse",
    "C29_reverse",
    "C29_append",
    "C29_nconc",
    "C29_nconc_shared_refuted",
    "C29_delete",
    "C29_delq",
    "C29_delete_if_not",
    "C29_filter",
    "C29_mapcar",
    "C29_copy",
    "C29_length",
    "C29_nth_partial",
    "C29_nth_refuted",
    "C29_last",
    "C29_member",
    "C29_assoc"
   ],
   "note": "All list functions modelled on a heap of cells with sharing. nth/nthcdr proved for indices below 2^31 and refuted outside; nconc with shared arguments refuted (makes a cycle)."
  },
  {
   "property": "C30",
   "status": "partial",
   "theorems": [
    "C30_length_partial",
    "C30_substring_partial",
    "C30_substring_rest_partial",
    "C30_range_error_partial",
    "C30_zero_refuted",
    "C30_long_refuted",
    "C30_incomplete_refuted"
   ],
   "note": "Partial: texts with U+0000 (counting stops there, refuted) and of 2 GB and more (int overflow, refuted) are excluded. Also refuted: with an incomplete last character the functions read past the end of the string. Backward stepping and bounded counting in utf8.c have no callers and are not modelled."
  },
  {
   "property": "C31",
   "status": "partial",
   "theorems": [
    "C31_equal_reflexive",
    "C31_equal_symmetric",
    "C31_equal_transitive_partial",
    "C31_equal_transitive_refuted",
    "C31_equal_exact_partial",
    "C31_equal_string_refuted"
   ],
   "note": "Reflexive and symmetric on all values; transitive for canonical numbers and strings below 2 GB; refuted outside."
  },
  {
   "property": "C32",
   "status": "partial",
   "theorems": [
    "C32_chunks_partial",
    "C32_buffer_partial",
    "C32_file",
    "C32_huge_chunk_refuted",
    "C32_md5_string_refuted",
    "C32_md5_digits_refuted"
   ],
   "note": "Whole MD5 (compression function proved equal to RFC 1321's, padding, length, buffering, file reading). Partial: single chunks of 4 GB and more are excluded (the length is miscounted from 8 GB on, refuted). Also refuted: md5-string and md5-local-file turn the digest into digits with a signed char shift, so every byte >= 0x80 is looked up before the start of the digit table, and the two digits of each byte are swapped. Read errors are not modelled."
  },
  {
   "property": "C33",
   "status": "partial",
   "theorems": [
    "C33_reachable_kept_partial",
    "C33_garbage_reclaimed_partial",
    "C33_collect_again_partial",
    "C33_free_list_partial",
    "C33_cons_fresh_partial",
    "C33_conses_distinct_partial",
    "C33_pending_lost_refuted",
    "C33_closure_integer_refuted",
    "C33_string_count_partial",
    "C33_string_count_refuted"
   ],
   "note": "Marking, guardians, weak references, cons and chain sweeps modelled cell by cell: for every heap graph that is well formed a collection terminates, keeps what the roots reach with the same contents, reclaims the rest and leaves a well formed state. Refuted: a guardian with pending objects reached only through an object being saved loses them to the free list (C33_pending_lost_refuted), a closure over a fixnum makes marking read at that number, the string count leaves out full blocks."
  },
  {
   "property": "C34",
   "status": "partial",
   "theorems": [
    "C34_weak_ref_partial",
    "C34_weak_ref_no_guardians_partial",
    "C34_guardian_collect_partial",
    "C34_guardian_push",
    "C34_guardian_pop",
    "C34_at_most_once",
    "C34_only_dead",
    "C34_given_twice_refuted",
    "C34_weak_static_refuted",
    "C34_guard_static_refuted",
    "C34_weak_guarded_refuted",
    "C34_guard_integer_refuted",
    "C34_weak_table_after_gc"
   ],
   "note": "Weak references and guardians proved against reachability for all well formed heaps and all histories of calls; refuted for statically allocated objects (never marked), guarded fixnums (read as pointers), weak references to guarded dead objects (not cleared) and objects guarded twice. Weak tables: C34_weak_table_after_gc."
  },
  {
   "property": "C35",
   "status": "partial",
   "theorems": [
    "C35_print_read",
    "C35_print_lines_read",
    "C35_blanks_skipped",
    "C35_nested_comment_refuted",
    "C35_abbreviations",
    "C35_reader_terminates",
    "C35_symbol_print_buffer",
    "C35_symbols_refuted",
    "C35_long_symbol_refuted",
    "C35_symbol_buffer_overflow_refuted",
    "C35_character_escape_refuted"
   ],
   "note": "Printing then reading gives back the datum for every nested list/vector/string/integer/character/symbol whose names meet the stated conditions; odd or over-long names, nested block comments and some character escapes are refuted."
  },
  {
   "property": "C36",
   "status": "partial",
   "theorems": [
    "C36_walk_partial",
    "C36_interrupted_walk_refuted",
    "C36_after_end_refuted"
   ],
   "note": "Uninterrupted walks, for every history with a one-block directory; a fetch in between breaks the walk and nextkey after the end starts again (refuted)."
  },
  {
   "property": "C37",
   "status": "partial",
   "theorems": [
    "C37_lisp_delete_never_deletes",
    "C37_lisp_delete_refuted"
   ],
   "note": "False of the code: sdbm-delete passes the length plus one, so it never removes its key in any state, and can remove another key."
  },
  {
   "property": "C38",
   "status": "partial",
   "theorems": [
    "C38_loop",
    "C38_after_handler_refuted"
   ],
   "note": "Same model (rep_lisp_depth counted). A chain of tail calls of any length keeps the depth; no binding is lost (part of C24_dynamic_binding_partial). Refuted after a completed catch/condition-case/unwind-protect in the same function: unbind does not decrement impurity for handlers, so the call is nested."
  },
  {
   "property": "C39",
   "status": "partial",
   "theorems": [
    "C39_string_match_partial",
    "C39_looking_at_partial",
    "C39_found_iff_partial",
    "C39_looking_at_iff_partial",
    "C39_greedy_partial",
    "C39_greedy_group_refuted",
    "C39_lazy_optional_refuted",
    "C39_lazy_alternative_refuted",
    "C39_negated_class_refuted",
    "C39_ignore_case_refuted",
    "C39_depth_refuted",
    "C39_word_edge_refuted",
    "C39_zero_byte_refuted",
    "C39_start_refuted",
    "C39_empty_repeat_refuted"
   ],
   "note": "The compiler (regcomp, byte code with offsets) and the backtracking matcher of regexp.c are modelled byte by byte; the specification is a denotation of regular expressions (`matches`) and the ordered list of ways to match (`ways`). For all regexps, strings and START that satisfy `fits` (no zero bytes, the form the manual describes, fewer than 10 groups, program under 32 K, nesting bound): leftmost, preferred match; no read outside. Refuted: ??; *? or +? of a group ending an alternative; \\W \\S \\D at the end of the string; ignore-case with non-ASCII characters; recursion limit of 2048; \\b at the ends; zero bytes; START beyond the string; repetition of what can match nothing is an error."
  },
  {
   "property": "C40",
   "status": "partial",
   "theorems": [
    "C40_quote_regexp_partial",
    "C40_zero_byte_refuted"
   ],
   "note": "For all strings without zero bytes up to 6551 characters, with and without case. Refuted: zero bytes end the regexp."
  },
  {
   "property": "C41",
   "status": "partial",
   "theorems": [
    "C41_expand_partial",
    "C41_expand_safe_partial",
    "C41_ampersand_refuted",
    "C41_groups_partial"
   ],
   "note": "The pairs are in order, within the match, and delimit what their expression matches (C41_groups_partial); expand-last-match substitutes them for every template and never overflows. Refuted: \\& gives an ampersand (& gives the match); expand-last-match before any match dereferences NULL."
  },
  {
   "property": "C42",
   "status": "partial",
   "theorems": [
    "C42_cache_partial",
    "C42_no_crash_partial",
    "C42_change_refuted",
    "C42_write_refuted",
    "C42_limit_refuted"
   ],
   "note": "Invariant over all operation sequences: every entry holds the program of the present contents of its live string. Refuted: changing the string of the last entry of the cache follows a null pointer (rep_string_modified); writing to a string through a stream does not invalidate it; a limit of 0 modulo 2^32 leaves entries for collected strings."
  },
  {
   "property": "C43",
   "status": "partial",
   "theorems": [
    "C43_replace_partial",
    "C43_replace_function_partial",
    "C43_replaced_unique",
    "C43_split_partial",
    "C43_split_join_partial",
    "C43_empty_match_refuted",
    "C43_function_refuted"
   ],
   "note": "For regexps satisfying `fits` that cannot match the null string, both terminate and give the result described, with string templates and with functions that leave the match data alone; splitting at a literal separator and joining is the identity. Refuted: a regexp matching the null string makes both loop forever; a template function that matches itself spoils the result."
  },
  {
   "property": "C44",
   "status": "partial",
   "theorems": [
    "C44_quote_url_partial",
    "C44_round_trip_partial",
    "C44_distinct_partial",
    "C44_zero_byte_refuted"
   ],
   "note": "For all strings without zero bytes: exact form, round trip, injectivity. Refuted: what follows a zero byte is not quoted."
  },
  {
   "property": "C45",
   "status": "partial",
   "theorems": [
    "C45_output_partial",
    "C45_write_partial",
    "C45_write_length",
    "C45_write_length_refuted",
    "C45_forged_refuted"
   ],
   "note": "For every program of the four operations over any number of streams and any initial heap; lengths do not overflow an int. Refuted: LENGTH is taken modulo 2^32; a pair that output-stream-p accepts may claim more room than its string has and is then overrun."
  },
  {
   "property": "C46",
   "status": "partial",
   "theorems": [
    "C46_read_char",
    "C46_read_chars",
    "C46_read_line",
    "C46_file_line_partial",
    "C46_file_line_refuted",
    "C46_copy_partial"
   ],
   "note": "String streams for every position, count and line length; read-line from local files for lines without NUL; copy-stream between string streams (lengths do not overflow an int). Refuted: a NUL in a line of a file cuts it, or reads as the end of the file. Other kinds of streams are not modelled."
  },
  {
   "property": "C47",
   "status": "partial",
   "theorems": [
    "C47_format_partial",
    "C47_format_stream_partial",
    "C47_numerals",
    "C47_negative_hex_refuted",
    "C47_padding_refuted",
    "C47_truncate_refuted",
    "C47_sign_refuted",
    "C47_underscore_refuted",
    "C47_nul_refuted",
    "C47_char_refuted"
   ],
   "note": "For every template written with the documented syntax, with hooks and integers of any size. Left out by hypothesis and refuted: negative fixnums in x/o, padding beyond 256, ^ without width, sign flags with strings or both at once. Also refuted: the manual's _ flag, NUL in templates, %c of other values. Rationals, floats and precision are not modelled."
  },
  {
   "property": "C48",
   "status": "partial",
   "theorems": [
    "C48_modules_partial",
    "C48_one_meaning",
    "C48_has_meaning_partial",
    "C48_cycle_refuted",
    "C48_export_all_refuted",
    "C48_undefine_refuted",
    "C48_meta_refuted"
   ],
   "note": "For every program of the modelled operations, with bindings removed, and everything exported, only while nobody has opened the module, and answers said only of modules that do not import themselves. Refuted otherwise: cyclic imports make answers depend on what was asked before; structure-exports-all leaves stale entries; removing a cached binding reads the freed node; %meta stays visible after the header. Loading of files by name and the header thunk are not modelled."
  },
  {
   "property": "C49",
   "status": "partial",
   "theorems": [
    "C49_isolation_partial",
    "C49_hidden_partial",
    "C49_redefine_refuted"
   ],
   "note": "Non-interference and hiding for every proper program and modules that do not import themselves. Refuted: a binding that is removed and made again is no longer exported."
  },
  {
   "property": "C50",
   "status": "partial",
   "theorems": [
    "C50_delivered_partial",
    "C50_in_order_partial",
    "C50_shared_refuted"
   ],
   "note": "For one module with the interface, any order; for several, in the order of the interface. Refuted otherwise: delq changes the shared list and the next module does not export all of it."
  },
  {
   "property": "C51",
   "status": "partial",
   "theorems": [
    "C51_value_partial",
    "C51_error_partial",
    "C51_effect_partial",
    "C51_diverges_partial",
    "C51_converse_partial",
    "C51_compiles_partial",
    "C51_shadowed_parameter_refuted",
    "C51_shadowed_name_refuted",
    "C51_inline_recursion_refuted",
    "C51_surplus_arguments_refuted",
    "C51_same_names_refuted",
    "C51_void_setq_refuted",
    "C51_definition_value_refuted",
    "C51_empty_clause_refuted",
    "C51_instruction_arguments_refuted"
   ],
   "note": "A simulation between the interpreter (eval, apply, bind_lambda_list and the special forms) and the byte-code machine on what the compiler and allocate-bindings emit, for every plain program, every meaning of the primitive instructions and any fuel: values, errors, globals and divergence agree, in both directions. Plain excludes self tail calls by name and letrec loops; the other restrictions are needed, as the nine refutations show. Assignment to an undefined global is excluded at run time. Peephole and assembler are C33 and C34."
  },
  {
   "property": "C52",
   "status": "partial",
   "theorems": [
    "C52_never_stuck_partial",
    "C52_ten_bits_refuted",
    "C52_funcall_refuted",
    "C52_case_in_loop_refuted"
   ],
   "note": "Compiled plain programs never underflow or overflow the stacks they declare, never jump to a missing label and never read an unset slot. Refuted: sizes of 1024 and more, open-coded funcall of a lambda, case in a named let in argument position."
  },
  {
   "property": "C53",
   "status": "partial",
   "theorems": [
    "C53_same_file_partial",
    "C53_symbolic_link_refuted",
    "C53_missing_directory_refuted",
    "C53_simplified",
    "C53_idempotent",
    "C53_complete_partial",
    "C53_absolute",
    "C53_no_overflow_partial",
    "C53_overflow_refuted",
    "C53_null_refuted",
    "C53_base_directory_partial",
    "C53_rooted",
    "C53_relative_refuted",
    "C53_tilde_partial",
    "C53_tilde_slash_refuted",
    "C53_expanded_again_partial"
   ],
   "note": "The loop of rep_expand_file_name over its buffer, expand-file-name with base directories and the tilde handler, against a small specification of how names are resolved in a tree of directories: same file, simplified, idempotent, complete, absolute, buffer bound. Partial: no null characters, names that fit in the buffer, no links. Refuted: names through symbolic links and missing directories, buffer overflow, null characters, ./~root, ~//../x."
  },
  {
   "property": "C54",
   "status": "partial",
   "theorems": [
    "C54_parts_partial",
    "C54_parts_null_refuted",
    "C54_as_directory_partial",
    "C54_directory_file_name_partial",
    "C54_inverse_partial",
    "C54_two_slashes_refuted",
    "C54_empty_refuted",
    "C54_home_partial",
    "C54_home_refuted"
   ],
   "note": "Parts, as-directory and directory-file-name with their meaning and inverses, for names without null characters. Refuted: two slashes at the end, the empty name, null characters, a HOME that ends in a slash."
  },
  {
   "property": "C55",
   "status": "partial",
   "theorems": [
    "C55_canonical_partial",
    "C55_root_refuted",
    "C55_long_name_refuted",
    "C55_operation_partial",
    "C55_operation_refuted"
   ],
   "note": "canonical-file-name over any correct realpath, and the operations that expand a name. Refuted: the root has the empty canonical name, a name that fills the buffer is read past its end, file-executable-p, file-gid and file-uid signal an error for names below the home directory."
  },
  {
   "property": "C56",
   "status": "partial",
   "theorems": [
    "C56_agrees_partial",
    "C56_intern_found_partial",
    "C56_intern_distinct_partial",
    "C56_intern_keeps_partial",
    "C56_unintern_partial",
    "C56_apropos_partial",
    "C56_unintern_elsewhere_refuted",
    "C56_unintern_loop_refuted",
    "C56_unintern_order_refuted",
    "C56_null_refuted",
    "C56_written_name_refuted",
    "C56_size_zero_refuted"
   ],
   "note": "Chains of symbols in buckets against sets of symbols, for every sequence of careful calls (each keeps to one obarray per symbol, one symbol per name, does not write into names, uses obarrays with a bucket). Refuted without care: unintern from an obarray the symbol is not in makes look-ups crash or loop, unintern reverses the order of symbols with one name, names with null characters, names that are written to, obarrays of size zero."
  },
  {
   "property": "C57",
   "status": "partial",
   "theorems": [
    "C57_put_get_partial",
    "C57_put_other_partial",
    "C57_shared_refuted",
    "C57_history",
    "C57_restricted",
    "C57_restricted_refuted"
   ],
   "note": "get and put on any heap of cells: the value put is got, nothing else changes; the history theorem for programs that only put. Partial: lists that end, and for other symbols lists without common cells; refuted when setplist shares a list. In a restricted environment put, setplist and symbol-plist are errors, get is not (refuted)."
  },
  {
   "property": "C58",
   "status": "partial",
   "theorems": [
    "C58_keyword_partial",
    "C58_keyword_distinct_partial",
    "C58_keyword_unintern_refuted",
    "C58_gensym_partial",
    "C58_gensym_refuted"
   ],
   "note": "make-keyword in every state reached by careful calls; the names of up to 2^31-1 generated symbols. Refuted: unintern of a keyword breaks later keywords, a name made by gensym can be interned already."
  },
  {
   "property": "C59",
   "status": "partial",
   "theorems": [
    "C59_fix_partial",
    "C59_fix_negative_refuted",
    "C59_later_partial",
    "C59_later_before_1970",
    "C59_later_refuted",
    "C59_seconds_partial",
    "C59_seconds_before_1970",
    "C59_seconds_refuted",
    "C59_minus"
   ],
   "note": "Partial: instants from 1970 on. Refuted before: fix-time and time-later-p calculate with unsigned long, seconds->time rounds days towards zero but the seconds down, a day late for every such instant that does not begin a day."
  },
  {
   "property": "C60",
   "status": "partial",
   "theorems": [
    "C60_day_number",
    "C60_every_day",
    "C60_next_day_partial",
    "C60_year_zero_refuted",
    "C60_weekday_partial",
    "C60_instant_partial",
    "C60_pre_epoch_refuted"
   ],
   "note": "For all n the n'th day after the epoch and for all dates from 1970 on; the next day has the next number for all dates from the year 1 on. Partial: timestamps from 1970 on; refuted before (unsigned), and for the year 0 (quotient rounds towards zero)."
  },
  {
   "property": "C61",
   "status": "partial",
   "theorems": [
    "C61_rfc822_partial",
    "C61_ctime_partial",
    "C61_iso_partial",
    "C61_terminates",
    "C61_case_refuted",
    "C61_zone_eats_month_refuted",
    "C61_iso_t_refuted",
    "C61_weekday_local_refuted"
   ],
   "note": "Through the modelled regexp engine (C46-C48), for every text of three grammars; ending for every text. Partial: names of months spelled as in RFC 822. Refuted: other letter case is an error, a zone takes the first letter of a month after a time, T before the time loses the time, the added name of the day is that in UTC."
  },
  {
   "property": "C62",
   "status": "partial",
   "theorems": [
    "C62_read_what_was_written",
    "C62_aset_in_bounds",
    "C62_aref_in_bounds",
    "C62_new_arrays_partial",
    "C62_long_vectors",
    "C62_vector_length_refuted",
    "C62_vector_size_refuted",
    "C62_copy_writable_refuted",
    "C62_stored_is_returned_refuted",
    "C62_elt_partial",
    "C62_elt_refuted"
   ],
   "note": "Reading, writing and bounds for all sound heaps. Partial: vectors of less than 2^23 elements. Refuted from there on: the length is shifted as an int, so the header says nearly 2^56 and aref reads other memory; 2^32+5 elements are five; copies of constant vectors are constant; aset returns what it was given and stores its low byte; elt of a list at 2^32 is the first element."
  },
  {
   "property": "C63",
   "status": "partial",
   "theorems": [
    "C63_substring_partial",
    "C63_substring_refuted",
    "C63_concat_partial",
    "C63_concat_refuted",
    "C63_split_partial",
    "C63_mapconcat_partial"
   ],
   "note": "Partial: strings of less than 2^31 characters (substring) and less than 2^32-1 in all (concat). Refuted beyond: substring signals, two strings of 2^31 characters concatenate to the empty string, longer ones are written beyond the buffer."
  },
  {
   "property": "C64",
   "status": "partial",
   "theorems": [
    "C64_head_partial",
    "C64_head_refuted",
    "C64_equal_partial",
    "C64_order",
    "C64_equal_refuted",
    "C64_high_bytes_refuted"
   ],
   "note": "The order laws for all strings and locales. Partial: ASCII without zeros for what the order is. Refuted: everything after a zero is ignored, bytes from 128 on come first."
  },
  {
   "property": "C65",
   "status": "partial",
   "theorems": [
    "C65_complete_partial",
    "C65_completion_unique",
    "C65_completion_stable",
    "C65_complete_zero_refuted",
    "C65_translate_partial",
    "C65_translate_self_refuted",
    "C65_case_partial",
    "C65_capitalize_empty_refuted",
    "C65_case_predicates"
   ],
   "note": "Partial: no zeros, ASCII when case is ignored, less than 2^31 characters, a table that is not the string. Refuted: a zero in the string to complete makes it read beyond a candidate, a string that is its own table, capitalize-string of the empty string returns its argument."
  },
  {
   "property": "C66",
   "status": "partial",
   "theorems": [
    "C66_entities_partial",
    "C66_read_partial",
    "C66_ends_partial",
    "C66_unclosed_partial",
    "C66_unclosed_refuted",
    "C66_question_refuted",
    "C66_comment_refuted",
    "C66_return_refuted"
   ],
   "note": "Partial: no zero bytes. Refuted: <?xml?> cannot be read (the question mark is taken for part of the name), a comment ends at the first >, a return character after a name becomes part of it, an element called nil need not be ended."
  },
  {
   "property": "C67",
   "status": "partial",
   "theorems": [
    "C67_text_partial",
    "C67_round_partial",
    "C67_escape_refuted",
    "C67_comment_refuted",
    "C67_question_refuted",
    "C67_merge_refuted"
   ],
   "note": "Partial: no comments, no < & apostrophe or quote in strings, no empty or adjacent strings, parameters in <? tags. Refuted: < is printed as the letters lt (the & and ; are missing), a comment's data is taken from the stream instead of the item, (?xml ()) is printed as something unreadable, adjacent strings are read back as one."
  },
  {
   "property": "C68",
   "status": "partial",
   "theorems": [
    "C68_interpreter",
    "C68_one_outcome",
    "C68_unwinding",
    "C68_catch",
    "C68_condition_case",
    "C68_cleanup_once",
    "C68_variables",
    "C68_error_in_list_refuted",
    "C68_catch_error_refuted"
   ],
   "note": "Partial: functions called from outside the program end; no closures, special variables, interrupts, debugger. Findings: error in a list of symbols does not stand for all errors; (catch 'error ...) takes errors for throws."
  },
  {
   "property": "C69",
   "status": "partial",
   "theorems": [
    "C69_compiled_partial",
    "C69_in_context_partial",
    "C69_tag_evaluated_refuted",
    "C69_tag_variable_refuted",
    "C69_improper_error_refuted"
   ],
   "note": "Partial: tags of catch are constants or variables that the body does not set, tags of throw constants other than error, functions signal errors of the form (error SYMBOL . DATA), every condition-case has a handler. Refuted without that: the compiled catch evaluates its tag after the body and only if something was thrown (effects missed; a throw missed if the body sets the variable), and (throw 'error 5) passes a compiled handler for error but not an interpreted one."
  },
  {
   "property": "C70",
   "status": "partial",
   "theorems": [
    "C70_changes",
    "C70_member",
    "C70_run",
    "C70_only",
    "C70_ends",
    "C70_endless_refuted",
    "C70_removed_refuted",
    "C70_added_refuted",
    "C70_shared_refuted"
   ],
   "note": "Partial: hook functions are atoms; the hook is named by a symbol without dynamic bindings; no interrupts; the lists of hooks are separate. Findings: a function removed before its turn is still called when the running function has removed itself first; one added at the end is called in the same run or not depending on whether the last function removed itself; a function that adds itself at the end is called for ever; hooks that share a list change each other."
  },
  {
   "property": "C71",
   "status": "partial",
   "theorems": [
    "C71_expansion",
    "C71_protected",
    "C71_remembered",
    "C71_redefined_refuted",
    "C71_changed_refuted"
   ],
   "note": "Partial: no ENVIRONMENT functions, autoloaded macros, inline (macro . f) operators or macro-environment bindings. Findings: until the next collection a macro that is redefined, another ENVIRONMENT, or a form changed in place still gives the remembered expansion."
  },
  {
   "property": "C72",
   "status": "partial",
   "theorems": [
    "C72_same",
    "C72_once",
    "C72_nil_refuted"
   ],
   "note": "Partial: the function is pure up to equal and does not change its arguments. Finding: a nil answer and an exit are not remembered, so such a call is computed each time."
  },
  {
   "property": "C73",
   "status": "partial",
   "theorems": [
    "C73_origin",
    "C73_no_stale"
   ],
   "note": "Partial: forms are lists (not closures); the free list of items and call-with-lexical-origins are left out."
  },
  {
   "property": "C74",
   "status": "partial",
   "theorems": [
    "C74_if",
    "C74_when",
    "C74_unless",
    "C74_progn",
    "C74_or",
    "C74_and",
    "C74_case",
    "C74_let",
    "C74_let_star",
    "C74_letrec",
    "C74_named_let",
    "C74_prog1",
    "C74_prog2",
    "C74_while",
    "C74_do",
    "C74_hidden_kept",
    "C74_case_empty_refuted",
    "C74_named_let_scope_refuted",
    "C74_unless_local_refuted",
    "C74_letrec_empty_refuted"
   ],
   "note": "Partial: parameter lists of symbols, no special variables, primitives do not call functions. Findings: a case clause with no items matches nil; the values of a named let are evaluated inside the scope of its name; a local variable named not changes unless; letrec with no body returns the last value."
  },
  {
   "property": "C75",
   "status": "partial",
   "theorems": [
    "C75_records",
    "C75_has_type_refuted",
    "C75_eol_is_mutable",
    "C75_accessor_unknown_field",
    "C75_accessor_nil_refuted",
    "C75_field_named_vector_refuted",
    "C75_field_named_type_refuted"
   ],
   "note": "Partial: printing of records is not modelled; the program does not use datum-ref with a record type to get at the vector of a record. Findings: () is a data object of type () that was never made by make-datum and whose value can be set; a field named vector or like the type breaks the constructor; an accessor for () is made without an error."
  },
  {
   "property": "C76",
   "status": "partial",
   "theorems": [
    "C76_tries"
   ],
   "note": "Partial: make-trie-from-file is not modelled; the callback of trie-foreach does not change the trie; the value of trie-insert-string! (the node of the terminator) is not used as a trie."
  },
  {
   "property": "C77",
   "status": "partial",
   "theorems": [
    "C77_compiled_form",
    "C77_compile_error",
    "C77_dead_code_refuted",
    "C77_shadowed_constant_refuted",
    "C77_string_match_refuted",
    "C77_concat_refuted"
   ],
   "note": "Partial: special forms are represented by if, let and progn; the other source transformations are not modelled. Findings: a local variable or parameter with the name of a constant of the file (defconst) is compiled to the constant; string-match and string-looking-at are folded although they set the match data; concat and substring are folded although they make a new string each time; a folded call that is an error stops the compiler even in code that is never run."
  },
  {
   "property": "C78",
   "status": "partial",
   "theorems": [
    "C78_search",
    "C78_plain_file_refuted",
    "C78_after_load",
    "C78_after_load_ends",
    "C78_order",
    "C78_failing_call_refuted"
   ],
   "note": "Partial: refuted in two regions: FILE without a suffix is never tried unless NO-SUFFIX is given, though the documentation (and load-all) says so; a thunk that signals an error loses those registered after it. File handlers that signal an error and interrupts are not modelled."
  },
  {
   "property": "C79",
   "status": "partial",
   "theorems": [
    "C79_once",
    "C79_ends",
    "C79_required",
    "C79_only_here",
    "C79_featurep_refuted",
    "C79_not_provided_refuted",
    "C79_mutual_refuted",
    "C79_misnamed_refuted",
    "C79_bare_structure_refuted"
   ],
   "note": "Partial: refuted where files do not follow the convention: a feature not provided is loaded each time, two files that provide at the end and require each other never end, a structure with another name than its file is opened silently and loaded at each opening, bare code that makes a structure requiring it never ends; and after require of an opened module featurep still says nil. Errors end the program (no handlers); structures exporting the variable features are not modelled."
  },
  {
   "property": "C80",
   "status": "partial",
   "theorems": [
    "C80_inheritance",
    "C80_found",
    "C80_one_method",
    "C80_self_argument_refuted",
    "C80_spoofed_refuted"
   ],
   "note": "Partial: refuted where the keyword #:self is an argument: it and the next argument are taken away from the method and become its self, so a caller can make a method run for another object. Bodies are a small expression language; methods given as functions are effect-free primitives; a base that is not an object is not modelled."
  },
  {
   "property": "C81",
   "status": "partial",
   "theorems": [
    "C81_integers",
    "C81_floor_partial",
    "C81_ceiling_partial",
    "C81_truncate_partial",
    "C81_round_partial",
    "C81_unique",
    "C81_floor_refuted",
    "C81_floor_great_refuted",
    "C81_round_refuted",
    "C81_parts",
    "C81_numerator_fixnum_refuted",
    "C81_numerator_bignum_refuted",
    "C81_abs_partial",
    "C81_abs_rational",
    "C81_abs_refuted",
    "C81_lcm_partial",
    "C81_lcm_one_refuted",
    "C81_lcm_three_refuted",
    "C81_lcm_zero_refuted",
    "C81_parity"
   ],
   "note": "Partial: refuted outside the ranges: (floor -(2^60+1)/2^60) is -1, (round (2^52+1+1/3)) is 2^52+2, above 2^63 the result is undefined in C; numerator and denominator of a fixnum read the number as an address (crash), of 2^70 they give 1 and a float; (abs -2^31) is -2^31; (lcm 5) is 1, (lcm 2 3 4) is 24, (lcm 0 0) is an error. Floats as arguments are not modelled."
  },
  {
   "property": "C82",
   "status": "partial",
   "theorems": [
    "C82_getenv_partial",
    "C82_setenv_partial",
    "C82_unsetenv_partial",
    "C82_one_value",
    "C82_child_partial",
    "C82_start_partial",
    "C82_equals_refuted",
    "C82_empty_child_refuted",
    "C82_start_refuted"
   ],
   "note": "Partial: refuted for names with = (setenv then shadows another variable), for names that the inherited environment has twice (rep sees the last value, other programs the first) and for a new process when no variables are left (it gets those rep was started with). Zero bytes and names over 6550 bytes are outside."
  },
  {
   "property": "C83",
   "status": "partial",
   "theorems": [
    "C83_params_partial",
    "C83_unambiguous_partial",
    "C83_value",
    "C83_escaped_name_refuted",
    "C83_parts_refuted",
    "C83_nameless_refuted",
    "C83_malformed_refuted"
   ],
   "note": "Partial: refuted for names with an escape (decoding the name overwrites the match data that the value is taken from: always an error), for parts without = (swallowed by the next name), for parts without a name (hide all that follow) and for malformed escapes (decoded to nonsense). Interning of the names is left out."
  },
  {
   "property": "C84",
   "status": "partial",
   "theorems": [
    "C84_canonical",
    "C84_same_file_partial",
    "C84_found_partial",
    "C84_again",
    "C84_one_path_partial",
    "C84_endless_refuted",
    "C84_not_directory_refuted",
    "C84_empty_refuted"
   ],
   "note": "Partial: refuted for a link over a directory back to itself (the count of links begins again at each component that is not a link: never ends, and takes stack each time round), for what follows a file that is not a directory (d/file/.. is accepted) and for the empty name (the current directory). The code is that for systems without realpath."
  },
  {
   "property": "C85",
   "status": "partial",
   "theorems": [
    "C85_integrity",
    "C85_secret_partial",
    "C85_lasting",
    "C85_modules_partial",
    "C85_own_variable",
    "C85_reclaimed_partial",
    "C85_takeover_refuted",
    "C85_undeclared_refuted",
    "C85_compiled_refuted",
    "C85_let_refuted",
    "C85_boundp_refuted",
    "C85_get_refuted"
   ],
   "note": "Partial: proved for variables declared by defvar (or by the C code). Refuted for variables that are not special (restricted code declares them special: every module then sees its value), for those special without defvar (add-hook, defvar compiled inside another form), for reclaimed variables under let, and for compiled defvar, which does not reclaim. default-boundp tells whether a variable is bound and get tells its properties."
  },
  {
   "property": "C86",
   "status": "partial",
   "theorems": [
    "C86_round_trip_partial",
    "C86_bounds_partial",
    "C86_layout_partial",
    "C86_array_partial",
    "C86_arguments_room_partial",
    "C86_arguments_partial",
    "C86_struct_ids",
    "C86_stable",
    "C86_alias_partial",
    "C86_padding_refuted",
    "C86_overflow_refuted",
    "C86_empty_refuted",
    "C86_uint64_refuted",
    "C86_range_refuted",
    "C86_alias_same_refuted",
    "C86_alias_get_refuted",
    "C86_nil_conversion_refuted",
    "C86_short_vector_refuted"
   ],
   "note": "Partial: proved for types without aliases and empty structures, numbers in range, layouts without padding, sizes that are multiples of the alignment. Refuted otherwise: padding is left out on writing, sizes are not rounded up (heap overflow in arrays), an empty structure resets the size, uint64 from 2^63 comes back negative, numbers out of range are cut, two aliases of one base share one id and conversion, reading an alias writes memory, omitted conversions are called as nil, short vectors are read beyond their end."
  },
  {
   "property": "C87",
   "status": "partial",
   "theorems": [
    "C87_absent",
    "C87_answers",
    "C87_order",
    "C87_repeat",
    "C87_actions",
    "C87_script_words",
    "C87_error_stops",
    "C87_startup",
    "C87_flag_value_refuted",
    "C87_steal_refuted",
    "C87_missing_refuted",
    "C87_shared_refuted",
    "C87_swallowed_refuted"
   ],
   "note": "Partial: proved for lines where no value looks like an option asked for, strings without zero bytes, separate string objects (as main.c makes them). Refuted otherwise: --batch=no turns batch mode on, a value that looks like an option is taken by whoever asks first, a missing argument is an error only once, a string object occurring twice is removed twice, a script does not see --debug among its own words."
  },
  {
   "property": "C88",
   "status": "partial",
   "theorems": [
    "C88_parts_partial",
    "C88_parent_partial",
    "C88_compare_partial",
    "C88_order_partial",
    "C88_walk_partial",
    "C88_chain_unique",
    "C88_case_refuted",
    "C88_absolute_refuted",
    "C88_zero_byte_refuted"
   ],
   "note": "Partial: proved for names without zero bytes, over the model of the regular expression matcher. Refuted otherwise: names differing in case only are unrelated, a final dot counts as another label, a dot after a zero byte is not found."
  },
  {
   "property": "C89",
   "status": "partial",
   "theorems": [
    "C89_registered",
    "C89_tables",
    "C89_marked_served",
    "C89_ready_served",
    "C89_turn_order",
    "C89_marks_kept",
    "C89_only_fds",
    "C89_only_callbacks",
    "C89_sit_for_bound",
    "C89_sit_for_waits",
    "C89_uninitialised",
    "C89_signal_refuted",
    "C89_sit_for_serves_refuted",
    "C89_negative_refuted",
    "C89_poll_refuted",
    "C89_stale_mark_refuted",
    "C89_reused_refuted",
    "C89_starvation_refuted"
   ],
   "note": "Partial: callbacks do not start nested event loops in the model. Refuted: a signal ends sit-for early and it still returns t; sit-for does not process input though documented to; a negative time waits for 2^64 ms; polling says yes when select fails; a pending mark outlives deregistration and is given to the next handler; a descriptor reused within a turn is called for its former input; a descriptor that keeps marking itself starves all others for ever."
  },
  {
   "property": "C90",
   "status": "partial",
   "theorems": [
    "C90_whole_messages",
    "C90_prompt",
    "C90_pieces_do_not_matter",
    "C90_beginning_waits",
    "C90_cut_after_hash_refuted",
    "C90_cut_in_literal_refuted"
   ],
   "note": "Partial: proved for messages without a hash sign outside strings and names. Refuted for the others: if the first piece ends behind a hash sign inside the list, the beginning is dispatched as if it were the whole message; if a piece ends inside a word such as #undefined the handler fails with an error about syntax."
  },
  {
   "property": "C91",
   "status": "partial",
   "theorems": [
    "C91_at_most_once",
    "C91_own_answer",
    "C91_delivered",
    "C91_unasked",
    "C91_loss_is_silent",
    "C91_outcome",
    "C91_in_order",
    "C91_all_answered",
    "C91_comes_to_rest",
    "C91_lost_connection_refuted",
    "C91_other_connection_refuted",
    "C91_failed_call_refuted"
   ],
   "note": "Partial: sockets by address, proxies and the text of messages (C90) are left out. Refuted: when a connection is lost the calls waiting on it are never told (the data of the socket is removed before the loop that would tell them uses it, so that it fails at once), and a synchronous call waits for ever; a result from another connection is accepted; a call on an unknown connection fails but its callback stays entered."
  },
  {
   "property": "C92",
   "status": "partial",
   "theorems": [
    "C92_numbers",
    "C92_big_numbers",
    "C92_big_numbers_refuted",
    "C92_commands",
    "C92_get",
    "C92_big_files_refuted",
    "C92_get_failure",
    "C92_get_failure_refuted",
    "C92_links",
    "C92_simple",
    "C92_directories",
    "C92_directory_failure",
    "C92_names",
    "C92_put",
    "C92_put_endless",
    "C92_put_stops_refuted",
    "C92_connect",
    "C92_connect_refuted"
   ],
   "note": "Partial: what the server does to its files, login and the caching of directories are left out; messages of simple commands are assumed not to hold the byte 2. Refuted: sizes from 2^32 on are cut to their first eight digits, so that a sixteenth of the file is written and success is said, and from 2^36 on the server's buffer is overrun; the message of a failed get that comes in two pieces is an error (aset without its first argument); a signature cut anywhere within is thrown away and the session times out; a server whose client goes during a put reads for ever."
  },
  {
   "property": "C93",
   "status": "partial",
   "theorems": [
    "C93_fresh",
    "C93_own_changes",
    "C93_one_each",
    "C93_never_full",
    "C93_bound_refuted",
    "C93_broken_refuted",
    "C93_renamed_directory_refuted"
   ],
   "note": "Partial: names are not split and symbolic links not followed, reading a directory is one step. Refuted: the cache is not bounded by remote-rep-dircache-max-dirs (the setcdr that is to drop the last entry does nothing; nothing ever leaves to make room); a reading that ends with a time-out or an interrupt leaves its incomplete entry, which is believed for a minute; renaming a directory leaves the entry of the directory itself, so that the session still finds what it has moved away."
  },
  {
   "property": "C94",
   "status": "partial",
   "theorems": [
    "C94_position",
    "C94_right",
    "C94_option_index",
    "C94_remove_newlines"
   ],
   "note": "Partial: equal is a test of the car that always answers (it does not end on some circular items); beautify-symbol-name and program-exists-p are left out."
  },
  {
   "property": "C95",
   "status": "partial",
   "theorems": [
    "C95_lines",
    "C95_cutting",
    "C95_prompt_refuted",
    "C95_hash_refuted"
   ],
   "note": "Partial: the regular expressions that tell the kinds of lines are a parameter; sending of passwords and reconnecting are in the model but not in the theorems. Refuted: a prompt that is cut before its space makes the reply behind it a line that begins with a space, which is skipped, so that the command never ends; behind hash marks a prompt is only seen when they have come in a piece of their own."
  },
  {
   "property": "C96",
   "status": "partial",
   "theorems": [
    "C96_blocks",
    "C96_database",
    "C96_long_endless",
    "C96_ends_refuted",
    "C96_end_line_refuted"
   ],
   "note": "Partial: the database is a list, not the gdbm file; bytes of zero, errors of opening and storing are not modelled; fgets with room for one byte gives an empty string as in the GNU C library. Refuted: a block whose end has not come when the buffer is full is never finished, the program loops; text before the mark of the end on its line is lost."
  },
  {
   "property": "C97",
   "status": "partial",
   "theorems": [
    "C97_match",
    "C97_nothing_open",
    "C97_opening",
    "C97_backslash_refuted",
    "C97_string_refuted",
    "C97_escaped_refuted"
   ],
   "note": "Partial: the line, its display and the pause are not modelled, nor a count given to the key. Refuted: behind the literal of the backslash nothing is shown, and a string directly behind it is not seen as one; brackets escaped in symbols are counted."
  },
  {
   "property": "C98",
   "status": "partial",
   "theorems": [
    "C98_message",
    "C98_file",
    "C98_exactly",
    "C98_lines_refuted"
   ],
   "note": "Partial: the scan of forms and macros, the heading of the file, C mode, and bytes of zero in the notation of C are not modelled; names of files are written as they are. Refuted: lines are also cut behind a backslash followed by n that is no newline; this does no harm."
  },
  {
   "property": "C99",
   "status": "partial",
   "theorems": [
    "C99_serial",
    "C99_answer",
    "C99_all_answered",
    "C99_dead",
    "C99_waits_refuted"
   ],
   "note": "Partial: message ports are queues here, the fairness of the scheduler is not modelled (that the thread is served is an event), deletion happens between messages, and functions that do not return are not modelled. Refuted: an exception in an asynchronous call ends the thread, so that all later callers wait for ever although nobody deleted it."
  },
  {
   "property": "C100",
   "status": "partial",
   "theorems": [
    "C100_command",
    "C100_unknown",
    "C100_definitions",
    "C100_entries",
    "C100_blank",
    "C100_rest_refuted"
   ],
   "note": "Partial: the reader and the regular expressions for commands and empty lines are parameters; evaluation and commands are recorded, not run; interrupts are not modelled. Refuted: forms behind the first one of a line are dropped without a word."
  },
  {
   "property": "C101",
   "status": "partial",
   "theorems": [
    "C101_line",
    "C101_words",
    "C101_late_refuted",
    "C101_two_refuted"
   ],
   "note": "Partial: the end of the process, its start and dictionaries are not modelled. Refuted: after an answer that came too late every later word gets the answer to the one before it; after a text that the process takes for two words the next word fails as well."
  },
  {
   "property": "C102",
   "status": "partial",
   "theorems": [
    "C102_listing",
    "C102_pending_refuted",
    "C102_directory",
    "C102_links",
    "C102_loop_refuted",
    "C102_modes"
   ],
   "note": "Partial: the regular expression for lines and the expansion of names are parameters, errors of parsing and calls of tar are not modelled, the cache of listings is not modelled here. Refuted: what was left of a listing that stopped in a line becomes part of the next one; a loop of symbolic links is followed for ever."
  },
  {
   "property": "C103",
   "status": "partial",
   "theorems": [
    "C103_reference_partial",
    "C103_loads",
    "C103_definition",
    "C103_cell_refuted",
    "C103_overwritten_refuted"
   ],
   "note": "Partial: bodies of modules only define through the setter; further arguments of the setter and errors of loading are not modelled; the exact answer needs that modules define what they are named for, agree with each other, and that the program leaves their symbols alone. Refuted: when the module does not define the symbol the reference gives the cell of the autoload itself; a definition by the program of an autoloaded symbol is overwritten when the module is loaded for another symbol."
  },
  {
   "property": "C104",
   "status": "partial",
   "theorems": [
    "C104_cases",
    "C104_mapcar",
    "C104_filter",
    "C104_search",
    "C104_dotted_refuted"
   ],
   "note": "Partial: the function that is called does not change the cells of the list, no interrupts, lists end. Refuted: for a list that ends in an atom remove-if-not calls the predicate for nil as well, and nil may become an element of the result; filter does not."
  },
  {
   "property": "C105",
   "status": "partial",
   "theorems": [
    "C105_read_partial",
    "C105_required",
    "C105_closed_refuted",
    "C105_long_refuted"
   ],
   "note": "Partial: opening the library and the table of libraries are not modelled; no bytes 0 in files; loading of modules is a parameter without effects on the file. Missing: lines of 255 bytes or more. Refuted: a long line that says nothing can give a name; the file is not closed when a required module does not load."
  }
 ]
}