c("C01","proved",["rendered_css_reads_back"],"All sheets and classes with lexically closed fragments.")
c("C02","proved",["rendered_css_balanced","close_loop_terminates"],"")
c("C03","proved",["rendered_css_layout"],"No side condition.")
c("C04","proved",["silent_sheet_renders_empty","declarations_render_nonempty","keyframes_always_printed","keyframes_always_printed_read"],"Keyframes nested in blocks (not producible by the parser) are not covered by the 'always printed' part.")
c("C05","proved",["scoped_selector_markers","scoped_selector_plain","selectors_decompose","scoped_selector_mentions_class","declarations_stay_scoped"],"Class names without ':'.")
c("C06","proved",["global_selector_verbatim","global_selector_no_amp"],"")
c("C07","partial",["quoted_text_kept_partial","quoted_text_kept_refuted","quoted_text_exact"],"REFUTED in general: '&' (and ':root') inside quotes is replaced. quoted_text_exact says what stands in the place of every quoted text, and that it is kept exactly when it has no '&' and, in a scoped style, no ':root'.")
c("C08","proved",["dangling_declarations_apply_to_class"],"")
c("C09","proved",["parse_terminates","parse_depth_irrelevant"],"The Rust recursion itself is not bounded by a stack size in the model.")
c("C10","proved",["parser_consumes_everything","parsed_text_says_sheet"],"")
c("C12","proved",["parsed_sheet_shape","trim_exact","parsed_name_nonempty_refuted"],"Names and values made of Unicode white space only are trimmed to nothing.")
c("C14","partial",["declaration_before_block_iff","declaration_before_block_partial","declaration_before_block_refuted"],"REFUTED: a declaration followed by a selector containing ':' is taken into the selector. declaration_before_block_iff says for exactly which selectors: those that start like a declaration.")
c("C15","partial",["selector_list_split_partial","comma_in_parentheses_refuted","selector_with_brace_refuted","selector_list_split_iff"],"REFUTED for commas in parentheses. selector_list_split_iff: the list is split at every comma outside strings, so the selectors meant are found exactly when none of them has such a comma.")
c("C16","partial",["blank_in_empty_braces_partial","blank_in_empty_braces_refuted","blank_in_empty_braces_iff","blank_in_empty_keyframes_rejects_all"],"REFUTED for keyframes, frames and nested at-rules: for these, whatever the names, conditions and selectors, blank space between the braces is accepted exactly when it is empty (blank_in_empty_braces_iff). Proved for blocks and top-level conditional rules.")
c("C11","proved",["grammar_text_parses","layout_does_not_matter","grammar_leading_blank","comment_layout_refuted"],"For the grammar of SpecGrammar.v (blank space and comments everywhere but: after a value ending in a string or interpolation, after a selector, and inside the head of an at-rule, where only white space is allowed; and between the braces of an empty nested rule). comment_layout_refuted shows the exceptions are real.")
c("C17","proved",["cache_transparent","failures_not_cached"],"Calls are atomic (the lock is held throughout).")
c("C13","partial",["generated_css_reparses","written_css_reparses","empty_keyframes_reparse_refuted"],"REFUTED only for keyframes rules without declarations (accepted, but their generated CSS is rejected, which panics in debug builds). Proved for all other sheets of the documented syntax.")
c("C18","proved",["create_registered_shares","create_twice_same"],"")
c("C19","proved",["counter_ids_never_collide","counter_ids_wrap_around","random_ids_never_collide","same_name_same_style","thread_no_clash","threads_names_differ"],"counter_ids_wrap_around shows the 2^64 bound is needed.")
c("C20","proved",["registry_consistent"],"Texts of hydrated global styles are the exception, see C29.")
c("C21","proved",["in_document_exactly_while_alive","no_other_elements","page_elements","plain_prefix_plain_id","entropy_is_plain"],"Containers in the document, selector-safe prefixes, ids that do not clash (C19).")
c("C22","proved",["append_places_last","elements_in_creation_order"],"")
c("C23","partial",["prepend_on_nonempty_always_fails","prepend_becomes_first_child_refuted","prepend_becomes_first_child_partial"],"REFUTED: insertBefore is given the wrong reference node, so prepending into a container that has children fails. Proved for empty containers.")
c("C24","proved",["failed_create_leaves_no_trace","failed_build_leaves_no_trace"],"")
c("C25","proved",["other_managers_untouched","other_managers_elements_untouched"],"")
c("C26","partial",["unregister_exact","unregister_affects_only_itself_refuted","unregister_affects_only_itself_partial","unregister_twice_is_noop"],"REFUTED: unregister removes whatever is registered under the key now. Proved while the handle's style is the registered one, and for keys with nothing registered.")
c("C27","proved",["last_manager_drop_releases_styles"],"")
c("C28","proved",["hydration_reproduces_names"],"")
c("C29","partial",["hydrated_text_scoped_partial","hydrated_text_refuted","hydrated_text_iff"],"REFUTED for global styles (rendered as if scoped after hydration). Proved exactly (hydrated_text_iff): the text is the server's if and only if the style is scoped or nothing of it stands in a block.")
c("C30","proved",["static_create_records_once","static_data_lists_created_styles"],"")
c("C31","proved",["snapshots_are_values","snapshot_is_stable"],"Refinement of the Arc copy-on-write vector to plain values.")
c("C32","partial",["style_data_loads_iff","style_data_always_loads_refuted","style_data_loads_partial"],"REFUTED: a style unregistered and re-created on the server is recorded twice and panics the client. Proved for data with distinct keys, which C28 shows every server without unregistration produces.")
c("C50","partial",["static_markup_lists_records","static_markup_lists_records_refuted","static_markup_lists_records_iff"],"The style id is not escaped, so the property fails for prefixes containing a double quote (documented in the source). Proved for all other ids, and exactly for those (static_markup_lists_records_iff); html_escape::encode_style is an arbitrary function whose result holds no </style.")
c("C51","partial",["hydrated_names_never_collide_refuted","hydrated_names_never_collide_partial","hydrated_names_collide_iff"],"REFUTED with the counter: the client's counter starts at 0 again. Proved when no drawn suffix clashes. hydrated_names_collide_iff says with which style of the server a new one shares its name: the one of the same number, prefix and kind.")
c("C52","partial",["removed_when_dropped_shadow_root_refuted","removed_when_dropped_bad_prefix_refuted","removed_when_dropped_partial","removed_when_dropped_iff","hidden_elements_stay"],"REFUTED for containers outside the document and for prefixes that are not selector-safe. Proved exactly: a style that nothing holds has left its element behind if and only if the document does not reach its container or its id is no plain identifier; and such an element stays for ever.")
c("C33","proved",["sheet_binary_round_trip","data_binary_round_trip","tokens_read_terminates","sheet_tree_round_trip","data_tree_round_trip","received_data_loads_like_sent"],"For positional (bincode-like) and self-describing (JSON-like) formats; byte and text encodings are those crates'.")
c("C34","proved",["equality_ignores_ownership","key_equality_ignores_ownership","clone_keeps_ownership_and_data","hash_ignores_ownership","serialization_ignores_ownership"],"")
c("C53","partial",["received_markup_refuted","received_markup_partial"],"REFUTED: style_str is skipped by serde, so received data writes empty style elements. Proved: the elements and ids are the same; the markup is the same exactly if the data held no CSS. Loading is not affected (C33).")
c("C35","proved",["literal_macro_substitutes","render_joined"],"Any number of evaluations in any environments. The value of a string literal token is an oracle (litrs). User expressions are opaque: an environment gives their Display text.")
c("C36","proved",["literal_macro_accepts_iff","literal_macro_total"],"An exact characterisation of the calls that compile.")
c("C37","partial",["plain_literal_accepted_refuted","plain_literal_accepted_refuted_more","plain_literal_accepted_partial","plain_fragments_accepted_partial","plain_literal_accepted_iff"],"REFUTED: `content: \"{\";` parses at run time and is a compile error in the macro. Proved for literals without dollar signs, double quotes and comments, and for sheets whose texts contain neither `$` nor `{`. plain_literal_accepted_iff says exactly which literals compile.")
c("C38","proved",["placeholder_notation_round_trip","placeholder_notation_only","placeholder_scan_terminates"],"")
c("C39","proved",["interpolated_values_current","literal_macro_current"],"The generated Rust is modelled with rustc's rule that const and static initialisers use no local variables and const ones do not allocate.")
c("C40","proved",["macro_and_parser_render_alike"],"")
c("C41","partial",["macro_and_parser_equal_refuted","macro_and_parser_equal_partial","compact_blocks"],"REFUTED for at-rules: the run-time parser keeps \"@media \" and its condition as two fragments, the macro joins them, so the sheets are different keys. Proved: they are equal exactly if every text of the parsed sheet is one fragment.")
c("C42","proved",["inline_spacing","inline_spacing_unique"],"")
c("C43","proved",["inline_macro_sheet","inline_reading_unique","inline_sheet_unique"],"Against a grammar of Rust tokens and the sheet its items spell. Which token trees are Rust expressions is an oracle (syn).")
c("C44","proved",["inline_macro_accepts_iff","inline_macro_rejects"],"An exact characterisation of the inputs that are accepted; all others leave errors and an empty sheet behind.")
c("C45","proved",["inline_selectors","inline_selectors_cut"],"")
c("C46","partial",["inline_never_panics_refuted","inline_never_panics_partial","inline_macro_total","inline_panics_iff","inline_syntax_error_iff","inline_errors_iff","inline_items_unique"],"REFUTED: braces inside of parentheses of an at-rule condition or of a pseudo class function panic. Proved for inputs with no braces inside of parentheses and brackets but those of expressions. inline_panics_iff says exactly which inputs panic, inline_syntax_error_iff and inline_errors_iff which are refused.")
c("C54","partial",["inline_words_apart_refuted","inline_words_apart_partial","inline_words_apart_iff"],"REFUTED: `${w} solid` and `calc(1px - 2px)` are written without a space. Proved for identifiers, literals and functions; inline_words_apart_iff says for which neighbours exactly a space is written.")
c("C55","partial",["inline_accepts_selectors_refuted","inline_accepts_selectors_partial"],"REFUTED: `a:hover { .. }` is taken for a declaration. Proved: a rule whose selector is made of what selectors may contain is accepted exactly if it does not start with a name and a colon.")
c("C47","proved",["global_carries","global_css_present","global_css_gone"],"For every order in which yew's use_memo may drop values and dependencies. Prefixes that are not selector-safe and hydration are excluded by hypotheses (C29, C52 show they misbehave).")
c("C48","partial",["prepared_media_query_current","media_query_current_refuted","media_query_early_change_refuted","media_query_current_partial","media_query_current_iff"],"REFUTED for use_media_query: its state is not recomputed when the query changes, nor when the media change before the effect has run. Proved in full for use_prepared_media_query, and for use_media_query with one query and quiet media before the first effects. media_query_current_iff: use_media_query is right exactly if it was right when the effects of the latest rendering ran or the answer has been another one since.")
c("C49","proved",["source_classes","source_same_class","component_css_context","use_style_context"],"")
c("C56","partial",["global_one_copy_refuted","global_one_copy_partial","global_shares_iff"],"REFUTED: unmounting one of several components unregisters the style that the others still show, so the next one to mount adds a second copy. Proved (global_one_copy_partial): as long as none of those components is unmounted or given other properties, they share one element; C47 holds in any case. Exactly (global_shares_iff): of two components with the same CSS and manager that are not rendered again, the later one has the element of the earlier one if and only if none with that CSS was unmounted in between.")
c("C57","partial",["global_in_source_manager_refuted","global_in_source_manager_partial","global_in_source_manager_iff"],"REFUTED: the attached manager is ignored. What holds is global_carries: the manager of the context; so the attached one exactly if both are the same (global_in_source_manager_iff).")
c("C58","partial",["global_server_data_loads_refuted","global_server_data_loads_partial","global_server_data_loads_iff"],"REFUTED: a component is destroyed after it has been rendered, which unregisters its style; the next one with the same CSS is recorded again under another id, and loading both panics. Proved exactly (global_server_data_loads_iff): the data load if and only if no CSS is mounted again in the manager after a component with it is gone; otherwise loading panics.")
c("C59","partial",["source_style_stays_refuted","source_style_stays_partial","source_style_stays_iff","source_classes"],"REFUTED for a source that is the last owner of its manager: the style is removed before the class is returned. Proved exactly: the style is in the document if and only if the manager outlives the call or user code holds a handle on the style; otherwise nothing of it is.")
c("C60","proved",["sane_programs_never_fail","create_succeeds_iff","debug_check_passes"],"Loading style data, which can panic, is C32's. debug_check_passes gives sheets (those of C13) for which the check of debug builds passes.")
c("C61","proved",["components_never_panic"],"Loading style data is excluded (C32, C58). What Rust's ownership lets a program do is SpecProgress.allowed.")
c("C62","proved",["hydrated_component_has_server_class","hydrated_component_class","server_data_lists_classes"],"The transfer of the state between server and client is use_transitive_state, yew's; that the state survives serialisation is C33.")
c("C63","proved",["hydrated_page_keeps_styles"],"For scoped styles. A global style goes with the Global that carried it (C47).")
c("C64","partial",["provider_change_keeps_styles_refuted","provider_same_manager_partial","provider_other_manager_partial"],"REFUTED for another manager: the state is loaded into it as well, but the page's elements go with the first manager. Proved: rendering again with the same manager changes nothing; with another manager it panics exactly if the state contradicts what that manager knows, else that manager knows the server's names as well, and the elements stay if something else owns the first manager, and are removed if nothing does and user code does not hold the styles.")
c("C65","proved",["provider_takes","provider_gives_back"],"")
c("C66","proved",["created_as_asked","created_is_in_document","created_is_in_the_head","call_succeeds","parse_error_iff","parse_error_leaves_nothing", "call_reports_errors"],"created_is_in_document excludes loaded style data (C26, C28, C29 treat it). The error of the default manager itself (no document) is no parse error and is told apart by has_default.")
c("C67","proved",["registered_style_is_reused","same_css_same_style"],"For scoped styles. A global style is registered weakly and lives as long as its handles (C21).")
c("C68","proved",["constructors_give_back"],"")
c("C69","proved",["default_manager_documented","default_manager_stays"],"")
c("C70","proved",["text_takes_effect","literal_takes_effect","inline_takes_effect"],"For the default manager in the document's head, with class names not used by the page (names_fresh) and no loaded style data. The values of expressions must close what they open (closed_sheet, the hypothesis of C01). In debug builds sheets must pass the check of C13 (good_sheet).")
c("C71","proved",["class_valid_while_manager_lives","class_stays_valid"],"")
c("C72","proved",["same_class_same_css"],"Without loaded style data, where names are the server's (C29).")
c("C73","proved",["same_values_same_sheet","same_values_same_class"],"")
c("C74","proved",["served_page_works","served_state_hydrates"],"Assumes the markup is safe to write raw (no quote in a name, no end tag in the CSS: C50) and that random draws do not repeat.")
c("C75","proved",["component_classes","component_same_classes","component_class_one_css"],"yew renders the children of a component after its function has returned, so a rendering is a sequence of steps. component_class_one_css excludes loaded style data, where names are the server's (C29).")
c("C76","proved",["component_gives_back","component_reuses","component_never_panics"],"For functions that only use css!; other code in the function has its own effects (C61, C68).")
c("C77","proved",["component_takes_effect","macro_renders_what_it_says","component_macro_takes_effect", "macro_accepts_iff"],"Without loaded style data (C74 follows a hydrated page) and with class names not used by the page; values must close what they open (closed_sheet).")
c("C78","proved",["tree_serves","tree_styles_served","tree_hydrates"],"Components that only use css! (plain_body), each below a provider; two providers that share a manager in the browser must share it on the server. Managers built with a style data writer that nothing was made with before. The provider's children see its state only after it is rendered, as yew does.")
c("C79","proved",["global_takes_effect","global_text_takes_effect","global_macro_takes_effect","use_style_takes_effect","use_style_text_takes_effect","global_panics_iff","use_style_panics_iff"],"Without loaded style data and with class names not used by the page; text must close what it opens (closed_sheet). The panics are characterised up to the check of debug builds (C13, C59).")
c("C80","proved",["living_classes","living_same_classes","living_takes_effect","living_never_panics","living_stable","living_gives_back","living_from_hydration","living_keeps_served_classes"],"Components that only use css! (plain_body); the program goes on owning the managers it gives to providers. Giving another manager to a provider with data from a server may panic (C64), so living_never_panics excludes it. living_takes_effect is without loaded style data (names are then the server's: C29, C74) and with class names not used by the page.")
c("C81","proved",["constant_sheet_static","literal_macro_static_iff","inline_macro_static_iff"],"The meaning of the generated Rust (const items, statics, Lazy) is that of Output.v, as for C39.")
c("C82","proved",["class_renamed","same_css_renamed"],"class_mentioned_ex shows why the sheet may not mention the class.")
c("C83","proved",["sheets_compose","items_independent"],"")
c("C84","proved",["texts_join","texts_join_unless","closed_texts_join"],"For the texts of the grammar of C11; the excluded case is shown by texts_join_clash and C14.")
c("C85","proved",["attribute_accepts_iff","attribute_errors_iff","attribute_hygienic"],"The parser of items (syn) is an argument; Rust's scoping and hygiene are those of SpecScope.v: let with a plain name, groups and macro_rules! macros.")
c("C86", "proved", ["threads_right", "threads_ids", "threads_once", "threads_no_deadlock", "threads_finish", "thread_no_clash", "threads_names_differ"],
  "Steps are accesses to the lock, the cache, the counter and the cells of macros' sheets; a sequentially consistent "
  "memory is assumed, which the lock, SeqCst and Lazy give.")
c("C87", "proved", ["errors_change_nothing", "error_is_where_reading_stopped", "error_message_says", "unwrap_display_says"],
  "nom's VerboseError and convert_error are not in /repo; they are modelled after nom 7.1. That the caret counts bytes is "
  "shown by caret_counts_bytes.")

c("C88","proved",["work_changes_nothing","parse_quadratic","quadratic_reached","not_linear"],"Work is counted by running the parser with a counter: one for each parser called, and the characters taken or compared by each scan. Logging, allocation and collecting errors are not counted.")

c("C89","proved",["rendered_size","parsed_no_bigger","text_to_css_size","cube_reached"],"Sizes of sheets are defined in SpecSize.v. The square of the room of the class is for classes that themselves contain :root.")

c("C90","proved",["room_changes_nothing","braces_are_enough","nesting_is_enough","flat_is_constant","nesting_is_needed","braces_are_needed"],"Depth counts nested calls of scope_contents and rule_block; the stack frames of the nom combinators between two such calls are a constant number and are not modelled.")

c("C91","proved",["read_is_snapshot","read_is_prefix","writer_undisturbed","never_poisoned","read_no_deadlock","read_finish"],"The managers stay in one thread (they are Rc). Panics of the allocator and of clone are not modelled.")

c("C92","partial",["class_is_selected_refuted","class_is_selected_iff","default_class_is_selected","selector_starts_with_class","class_before_text_iff"],"REFUTED for prefixes that are no CSS names (a digit first, a dot, a blank, ...; an empty one if the suffix starts with a digit). Proved exactly: the class is selected if and only if the prefix is fit, and then it is one class of every attribute that lists it; the default prefix is fit. In a selector the class is read exactly if what follows & does not go on with the name (`&foo` is another class).")

c("C93","partial",["css_values_are_read_refuted","value_is_read_iff","block_value_is_read_iff","plain_value_is_read"],"REFUTED: strings in single quotes with a semicolon, unquoted data: URLs, dollar signs and braces are rejected or, as in `content: 'a; b: c';`, silently read as other declarations. Proved exactly, for values without `/*`: a value is read if and only if $ ; { } occur in it only inside of double quotes or interpolations and double quotes are closed.")

c("C94","partial",["at_rules_are_read_refuted","at_rule_starts","at_rule_separator_iff","at_rule_condition_iff"],"REFUTED: without a space directly after the name (`@media(min-width: 1px)`, a newline, a tab) and with names in upper case the text is rejected. Proved: a text that starts with @ is read only if one of the four names and a space come first; for conditional rules a space after the name is exactly what is needed, and conditions without $ are read exactly if there is no opening brace in them.")

c("C95","partial",["css_selectors_are_read_refuted","selector_is_read_iff","plain_selector_is_read"],"REFUTED for strings in single quotes with a brace or a comma, escaped commas, the suffix match `[href$=..]` and commas in parentheses. Proved: a selector without ; @ } and comments is read exactly if $ , { are in it only inside strings in double quotes (or interpolations), and all double quotes are closed. Missing: selectors with ; @ } outside of strings, and with a slash before a string, * or $.")

c("C96","partial",["animation_is_own_refuted","animation_is_own_partial","animation_is_rendered_whole"],"REFUTED: names of animations are not scoped, so a later style with an animation of the same name changes the animation of an earlier one. Proved: a @keyframes rule is written as one rule with all of its frames; and at any later time the page says about an animation what the style says if and only if the style elements after it say nothing else about this name. For scoped styles of the default manager, with keyframes outside of blocks (the only place where they are read from text) and no selector that starts with white space or @.")

c("C97","partial",["scoped_is_guarded_refuted","scoped_is_guarded_iff","scoped_selector_needs_class_iff","scoped_style_is_guarded_partial"],"REFUTED for `:not(&)`, for `&` in the string of an attribute selector (`[href=\"?a&b\"]` is not scoped at all) and for `&-title`: each selects an element of a page where none has the class. Proved exactly, for the text and (scoped_selector_needs_class_iff) for what is selected: the class is in a selector outside of strings, comments, parentheses and brackets, as a whole name, if and only if the selector has no & and :root, or has one there that no char of names follows; if all selectors of a style are like this and have no comma of a list, each declaration read from its CSS stands under a list of selectors that selects no element of any page where no element has the class. Selecting is modelled over the text of the list: commas, simple selectors, combinators; which elements simple selectors other than classes match, and where combinators lead, is arbitrary. Declarations of frames and of at-rules without a block have no selector.")

c("C98","partial",["scoped_stays_inside_refuted","scoped_selector_stays_inside","scoped_selector_stays_inside_iff","scoped_style_stays_inside_partial","created_style_stays_inside_partial"],"REFUTED for `+ p`, `& + p` and `:hover ~ p`: they select siblings of the element with the class. Proved for all styles whose selectors are single ones that have no & and :root, or one outside of strings, comments, parentheses and brackets, if neither + nor ~ is the first combinator after the class: each declaration read from the CSS stands under a list of selectors that selects only elements with the class and what is inside of them, in every page whose combinators lead where CSS says. These are exactly the selectors that do not leave the element (scoped_selector_stays_inside_iff: of the selectors without a combinator at an end that do not write the class themselves). Declarations of frames and of at-rules without a block have no selector.")

c("C99","proved",["scoped_selector_says","scoped_style_says","created_style_says"],"All selectors, in all pages in which class selectors match the elements that have the class. scoped_style_says is about the CSS that is read, for styles without strings, comments or brackets that are left open and with declarations of at-rules in blocks; the selectors are given up to white space around the list. created_style_says is the same about the element that is in the page for a style that was made in a browser, whatever is done afterwards but unregistering styles.")

c("C100","partial",["list_selects_each_refuted","list_selects_each_partial"],"REFUTED for `:is(p, .on)`: it is parsed as two selectors, the class is put into the parentheses, and an element with the class that is `.on` is not selected. Proved for all lists whose selectors are single ones, that is, without commas or open strings, comments, parentheses and brackets. Missing: lists with selectors that are cut at a comma.")
