-Q theories Verif
theories/Numbers_Model.v
theories/Numbers_Spec.v
theories/Numbers_Proofs.v
theories/Numbers_Props.v
theories/Tables_Model.v
theories/Tables_Spec.v
theories/Tables_Proofs.v
theories/Tables_Props.v
theories/Values_Model.v
theories/Values_Spec.v
theories/Values_Proofs.v
theories/Values_Props.v
theories/Lists_Model.v
theories/Lists_Spec.v
theories/Lists_Proofs.v
theories/Lists_Props.v
theories/Queues_Model.v
theories/Queues_Spec.v
theories/Queues_Proofs.v
theories/Queues_Props.v
theories/Ring_Model.v
theories/Ring_Spec.v
theories/Ring_Proofs.v
theories/Ring_Props.v
theories/Sort_Model.v
theories/Sort_Spec.v
theories/Sort_Proofs.v
theories/Sort_Props.v
theories/Base64_Model.v
theories/Base64_Spec.v
theories/Base64_Proofs.v
theories/Base64_Props.v
theories/Reader_Model.v
theories/Reader_Spec.v
theories/Reader_Proofs.v
theories/Reader_Props.v
theories/Sdbm_Model.v
theories/Sdbm_Spec.v
theories/Sdbm_Proofs.v
theories/Sdbm_DbProofs.v
theories/Sdbm_RunProofs.v
theories/Sdbm_CrashProofs.v
theories/Sdbm_EndProofs.v
theories/Sdbm_Props.v
theories/Timers_Model.v
theories/Timers_Spec.v
theories/Timers_Proofs.v
theories/Timers_InvProofs.v
theories/Timers_RunProofs.v
theories/Timers_Props.v
theories/Threads_Model.v
theories/Threads_Spec.v
theories/Threads_Proofs.v
theories/Threads_RunProofs.v
theories/Threads_InvProofs.v
theories/Threads_OrderProofs.v
theories/Threads_EffectProofs.v
theories/Threads_Props.v
theories/Sync_Model.v
theories/Sync_Spec.v
theories/Sync_SchedProofs.v
theories/Sync_PartProofs.v
theories/Sync_Proofs.v
theories/Sync_ExecProofs.v
theories/Sync_RunProofs.v
theories/Sync_TraceProofs.v
theories/Sync_PortProofs.v
theories/Sync_Props.v
theories/Barriers_Model.v
theories/Barriers_Spec.v
theories/Barriers_Proofs.v
theories/Barriers_TraceProofs.v
theories/Barriers_Props.v
theories/Fluids_Model.v
theories/Fluids_Spec.v
theories/Fluids_Proofs.v
theories/Fluids_Props.v
theories/Params_Model.v
theories/Params_Spec.v
theories/Params_Proofs.v
theories/Params_CompProofs.v
theories/Params_InlineProofs.v
theories/Params_Props.v
theories/Backquote_Model.v
theories/Backquote_Spec.v
theories/Backquote_Proofs.v
theories/Backquote_Props.v
theories/Peephole_Model.v
theories/Peephole_Spec.v
theories/Peephole_SimProofs.v
theories/Peephole_WinProofs.v
theories/Peephole_JumpProofs.v
theories/Peephole_Proofs.v
theories/Peephole_PlainProofs.v
theories/Peephole_Props.v
theories/Asm_Model.v
theories/Asm_Spec.v
theories/Asm_Proofs.v
theories/Asm_Props.v
theories/Md5_Model.v
theories/Md5_Spec.v
theories/Md5_Proofs.v
theories/Md5_Props.v
theories/Utf8_Model.v
theories/Utf8_Spec.v
theories/Utf8_Proofs.v
theories/Utf8_Props.v
theories/Gc_Model.v
theories/Gc_Spec.v
theories/Gc_Mark.v
theories/Gc_Guardians.v
theories/Gc_Sweep.v
theories/Gc_Proofs.v
theories/Gc_Collect.v
theories/Gc_After.v
theories/Gc_Props.v
theories/Regexp_Model.v
theories/Regexp_Spec.v
theories/Regexp_Code.v
theories/Regexp_Compile.v
theories/Regexp_Match.v
theories/Regexp_Frag.v
theories/Regexp_Sat.v
theories/Regexp_Search.v
theories/Regexp_Groups.v
theories/Regexp_Props.v
theories/Find_Model.v
theories/Find_Spec.v
theories/Find_Quote.v
theories/Find_Expand.v
theories/Find_Replace.v
theories/Find_Url.v
theories/Find_Cache.v
theories/Find_Props.v
theories/Stream_Model.v
theories/Stream_Spec.v
theories/Stream_Proofs.v
theories/Stream_Format.v
theories/Stream_Props.v
theories/Modules_Model.v
theories/Modules_Spec.v
theories/Modules_Proofs.v
theories/Modules_Steps.v
theories/Modules_Run.v
theories/Modules_Shared.v
theories/Modules_Props.v
theories/Compile_Model.v
theories/Compile_Spec.v
theories/Compile_Proofs.v
theories/Compile_Sim.v
theories/Compile_Top.v
theories/Compile_Total.v
theories/Compile_Props.v
theories/Files_Model.v
theories/Files_Spec.v
theories/Files_Proofs.v
theories/Files_Top.v
theories/Files_Props.v
theories/Symbols_Model.v
theories/Symbols_Spec.v
theories/Symbols_Proofs.v
theories/Symbols_More.v
theories/Symbols_Plist.v
theories/Symbols_Props.v
theories/Dates_Model.v
theories/Dates_Spec.v
theories/Dates_Proofs.v
theories/Dates_Scan.v
theories/Dates_Tokens.v
theories/Dates_Parse.v
theories/Dates_Whole.v
theories/Dates_Total.v
theories/Dates_Props.v
theories/Strings_Model.v
theories/Strings_Spec.v
theories/Strings_Proofs.v
theories/Strings_Text.v
theories/Strings_Props.v
theories/Xml_Model.v
theories/Xml_Spec.v
theories/Xml_Entities.v
theories/Xml_Proofs.v
theories/Xml_Total.v
theories/Xml_Props.v
theories/Control_Model.v
theories/Control_Spec.v
theories/Control_Proofs.v
theories/Control_Machine.v
theories/Control_Laws.v
theories/Control_Props.v
theories/Hooks_Model.v
theories/Hooks_Spec.v
theories/Hooks_Proofs.v
theories/Hooks_Run.v
theories/Hooks_Props.v
theories/Macros_Model.v
theories/Macros_Spec.v
theories/Macros_Proofs.v
theories/Macros_Props.v
theories/Memo_Model.v
theories/Memo_Spec.v
theories/Memo_Proofs.v
theories/Memo_Props.v
theories/Origins_Model.v
theories/Origins_Spec.v
theories/Origins_Proofs.v
theories/Origins_Props.v
theories/Syntax_Model.v
theories/Syntax_Spec.v
theories/Syntax_Proofs.v
theories/Syntax_Forms.v
theories/Syntax_Keep.v
theories/Syntax_Loops.v
theories/Syntax_Props.v
theories/Records_Model.v
theories/Records_Spec.v
theories/Records_Proofs.v
theories/Records_Props.v
theories/Trie_Model.v
theories/Trie_Spec.v
theories/Trie_Proofs.v
theories/Trie_Props.v
theories/Fold_Model.v
theories/Fold_Spec.v
theories/Fold_Proofs.v
theories/Fold_Props.v
theories/Load_Model.v
theories/Load_Spec.v
theories/Load_Proofs.v
theories/Load_Props.v
theories/Require_Model.v
theories/Require_Spec.v
theories/Require_Proofs.v
theories/Require_Ends.v
theories/Require_Props.v
theories/Objects_Model.v
theories/Objects_Spec.v
theories/Objects_Proofs.v
theories/Objects_Props.v
theories/Rounding_Model.v
theories/Rounding_Spec.v
theories/Rounding_Proofs.v
theories/Rounding_Props.v
theories/Environ_Model.v
theories/Environ_Spec.v
theories/Environ_Proofs.v
theories/Environ_Props.v
theories/Cgi_Model.v
theories/Cgi_Spec.v
theories/Cgi_Proofs.v
theories/Cgi_Props.v
theories/Realpath_Model.v
theories/Realpath_Spec.v
theories/Realpath_Proofs.v
theories/Realpath_Props.v
theories/Gaol_Model.v
theories/Gaol_Spec.v
theories/Gaol_Proofs.v
theories/Gaol_Secret.v
theories/Gaol_Props.v
theories/Ffi_Model.v
theories/Ffi_Spec.v
theories/Ffi_Proofs.v
theories/Ffi_Trip.v
theories/Ffi_More.v
theories/Ffi_Props.v
theories/Options_Model.v
theories/Options_Spec.v
theories/Options_Proofs.v
theories/Options_Props.v
theories/Domain_Model.v
theories/Domain_Spec.v
theories/Domain_Proofs.v
theories/Domain_Props.v
theories/Inputs_Model.v
theories/Inputs_Spec.v
theories/Inputs_Proofs.v
theories/Inputs_Time.v
theories/Inputs_Props.v
theories/Rpc_Model.v
theories/Rpc_Spec.v
theories/Rpc_Proofs.v
theories/Rpc_Props.v
theories/Calls_Model.v
theories/Calls_Spec.v
theories/Calls_Proofs.v
theories/Calls_System.v
theories/Calls_Props.v
theories/Remote_Model.v
theories/Remote_Spec.v
theories/Remote_Proofs.v
theories/Remote_Props.v
theories/Dircache_Model.v
theories/Dircache_Spec.v
theories/Dircache_Proofs.v
theories/Dircache_Props.v
theories/Position_Model.v
theories/Position_Spec.v
theories/Position_Proofs.v
theories/Position_Props.v
theories/Ftp_Model.v
theories/Ftp_Spec.v
theories/Ftp_Proofs.v
theories/Ftp_Props.v
theories/Repdoc_Model.v
theories/Repdoc_Spec.v
theories/Repdoc_Proofs.v
theories/Repdoc_Props.v
theories/Paren_Model.v
theories/Paren_Spec.v
theories/Paren_Proofs.v
theories/Paren_Props.v
theories/Xgettext_Model.v
theories/Xgettext_Spec.v
theories/Xgettext_Proofs.v
theories/Xgettext_Props.v
theories/Proxy_Model.v
theories/Proxy_Spec.v
theories/Proxy_Proofs.v
theories/Proxy_Props.v
theories/Repl_Model.v
theories/Repl_Spec.v
theories/Repl_Proofs.v
theories/Repl_Props.v
theories/Ispell_Model.v
theories/Ispell_Spec.v
theories/Ispell_Proofs.v
theories/Ispell_Props.v
theories/Tar_Model.v
theories/Tar_Spec.v
theories/Tar_Proofs.v
theories/Tar_Props.v
theories/Autoload_Model.v
theories/Autoload_Spec.v
theories/Autoload_Proofs.v
theories/Autoload_Props.v
theories/Mapping_Model.v
theories/Mapping_Spec.v
theories/Mapping_Proofs.v
theories/Mapping_Props.v
theories/Libtool_Model.v
theories/Libtool_Spec.v
theories/Libtool_Proofs.v
theories/Libtool_Props.v
