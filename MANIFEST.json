{
 "claims": [
  {
   "property": "C01",
   "status": "proved",
   "theorems": [
    "C01_cache_bounded_and_consistent",
    "C01_zero_capacity_refuted",
    "C01_raising_callback_refuted"
   ],
   "note": "Proved for all capacities >= 1, all histories, non-raising callback. The two refuted theorems show what happens outside these hypotheses."
  },
  {
   "property": "C02",
   "status": "proved",
   "theorems": [
    "C02_cache_refines_event_trace"
   ],
   "note": "Trace refinement over all histories."
  },
  {
   "property": "C03",
   "status": "proved",
   "theorems": [
    "C03_second_chance_eviction"
   ],
   "note": "Exact victim and queue after eviction for every reachable full cache."
  },
  {
   "property": "C04",
   "status": "partial",
   "theorems": [
    "C04_contexts_refine_stack_partial",
    "C04_leaf_block_restores_partial",
    "C04_restore_refuted"
   ],
   "note": "False as stated: three nested blocks lose the outermost options (C04_restore_refuted). Holds for depth <= 2 and for blocks that open no further block."
  },
  {
   "property": "C05",
   "status": "proved",
   "theorems": [
    "C05_inherit_inwards_no_leak"
   ],
   "note": "At any depth."
  },
  {
   "property": "C06",
   "status": "proved",
   "theorems": [
    "C06_threads_do_not_interfere"
   ],
   "note": "Every schedule over any set of (thread, context class) slots; threading.local itself is trusted."
  },
  {
   "property": "C07",
   "status": "proved",
   "theorems": [
    "C07_names_unique_and_stable"
   ],
   "note": "All draws of the random generator, all request histories."
  },
  {
   "property": "C08",
   "status": "partial",
   "theorems": [
    "C08_reference_resolves_to_last_same_key",
    "C08_embedded_objects_partial",
    "C08_embedded_objects_refuted",
    "C08_closures_refuted"
   ],
   "note": "False as stated: two objects with the same name prefix and hash share a name (e.g. 0.5-style hash collisions, closures of one function). Holds when hashes of distinct embedded objects differ."
  },
  {
   "property": "C09",
   "status": "proved",
   "theorems": [
    "C09_constants"
   ],
   "note": "every str (any code points) and every int: Python's tokenizer and parser read the emitted text as exactly one literal denoting it; also inside any surrounding code by C10's theorems. Values of exactly these types (subclasses are passed by name)"
  },
  {
   "property": "C10",
   "status": "partial",
   "theorems": [
    "C10_code_is_what_was_written",
    "C10_converter",
    "C10_every_text_is_one_expression",
    "C10_negative_constant_refuted",
    "C10_label_quote_refuted"
   ],
   "note": "full for every nesting of items, attributes, calls, operators, comparisons, and/or/not/if, collections, comprehensions except an item, attribute or call applied directly to an int constant (false there: refuted), and labels containing quotes (refuted); for labels, defaults, optional items, tap and pipes every expression is read as the tree of the generated code. CPython's nesting limits and the statements of helper functions are not modelled"
  },
  {
   "property": "C11",
   "status": "proved",
   "theorems": [
    "C11_pipe_reuses_operands"
   ],
   "note": "Every heap, also shared/self pipes and failing pipes, with and without labels; next_conversion not a Python callable."
  },
  {
   "property": "C12",
   "status": "proved",
   "theorems": [
    "C12_pipe_length_limit",
    "C12_result_exceeds_limit_refuted"
   ],
   "note": "Exact failure condition for every limit; the refuted theorem shows the result may be longer than the limit."
  },
  {
   "property": "C13",
   "status": "partial",
   "theorems": [
    "C13_signature_partial",
    "C13_explicit_signature_partial",
    "C13_pipe_keeps_arguments",
    "C13_sort_key_refuted",
    "C13_default_value_refuted",
    "C13_data_name_refuted",
    "C13_aggregations_partial",
    "C13_inner_function_partial",
    "C13_group_sort_key_refuted",
    "C13_condition_label_refuted",
    "C13_sorted_after_generation"
   ],
   "note": "Proved for every conversion tree whose sort keys use no input argument: the parameters are data_ plus the used arguments, sorted, once each; an explicit signature is rejected exactly when a used argument is not a word of it; piping (with labels) loses no dependency. Refuted: arguments in sort keys are not parameters; the explicit check accepts default values; an argument named data_ is declared twice. The same for reduces, group_by/aggregate and joins (C13_aggregations_partial), and for the parameters of the inner group_by function; refuted: arguments in the sort key of a group_by, and arguments hidden by a label of the same name in a join condition."
  },
  {
   "property": "C14",
   "status": "proved",
   "theorems": [
    "C14_converter_has_the_direct_reading",
    "C14_converter_has_the_direct_reading_total_tests"
   ],
   "note": "for every behaviour of user functions and objects (abstract primitives and world); the fragment is Spec_Frag.frag, a syntactic condition (piped-into conversions use their input once and first); truth tests may raise or have effects in the first theorem"
  },
  {
   "property": "C15",
   "status": "partial",
   "theorems": [
    "C15_value_partial",
    "C15_no_other_outcome_partial",
    "C15_exception_refuted",
    "C15_truth_test_refuted"
   ],
   "note": "Values: for any nesting of pipes, conditionals, comprehensions, optional items and lookups with defaults, and any number of uses of a piped value, the compiled converter returns the value of the direct reading. Missing: exceptions (refuted: one may be lost to a short circuit), truth tests that raise (refuted), labels and mutations, conditions that skip the piped value (C18)."
  },
  {
   "property": "C16",
   "status": "proved",
   "theorems": [
    "C16_stages_run_once_in_order",
    "C16_stages_in_turn",
    "C16_no_stage_after_an_exception"
   ],
   "note": "the first theorem has no restriction on the stages; the other two are about the direct reading, for stages in the fragment of C14"
  },
  {
   "property": "C17",
   "status": "partial",
   "theorems": [
    "C17_lookup_or_default_partial",
    "C17_lookup_in_or_default_partial",
    "C17_input_arg_index_refuted"
   ],
   "note": "value, default or the other exception, for every chain of lookups; indices that are input arguments are outside the fragment because the generated helper does not receive them (refuted)"
  },
  {
   "property": "C18",
   "status": "partial",
   "theorems": [
    "C18_if_runs_its_input_once",
    "C18_if_reads",
    "C18_nested_condition_using_input_twice_refuted",
    "C18_nested_condition_skipping_input_refuted"
   ],
   "note": "holds for if_ as a pipeline stage, without restriction on the parts for the number of evaluations; inside an expression the condition's first use of the input fills the cache, so a condition that uses the input twice or not at all breaks it (both refuted)"
  },
  {
   "property": "C19",
   "status": "partial",
   "theorems": [
    "C19_labels_store_the_values",
    "C19_pipe_to_a_function",
    "C19_label_recalled",
    "C19_pipe_into_this_refuted",
    "C19_add_label"
   ],
   "note": "label_input, label_output and add_label for every pipe of the fragment of C14, into conversions and into functions; a label conversion piped into c.this() is mistaken for a plain label (refuted)"
  },
  {
   "property": "C20",
   "status": "proved",
   "theorems": [
    "C20_no_label_survives_a_finished_call",
    "C20_unstarted_generator_refuted"
   ],
   "note": "For every behaviour of the generated code. The refuted theorem shows why generators dropped before their first next() are excluded."
  },
  {
   "property": "C21",
   "status": "partial",
   "theorems": [
    "C21_overlapping_generators_partial",
    "C21_overlapping_generators_refuted",
    "C56_overlapping_joins_refuted"
   ],
   "note": "False as stated: labels are per converter, not per call. Holds for converters whose outputs do not depend on labels stored in another step."
  },
  {
   "property": "C22",
   "status": "partial",
   "theorems": [
    "C22_optional_items",
    "C22_optional_dict_items",
    "C22_refused",
    "C22_changing_value_refuted",
    "C22_skip_if_with_keep_if_refuted"
   ],
   "note": "every list of entries, all five kinds of condition, list/tuple/set/dict; needs item conversions without effects: the value is computed once for the condition and again for the collection, so a function that answers differently the second time breaks it (refuted); skip_if is silently dropped when keep_if is passed, too (refuted)"
  },
  {
   "property": "C23",
   "status": "partial",
   "theorems": [
    "C23_collections_partial",
    "C23_dicts",
    "C23_empty_set_refuted",
    "C23_empty_tuple_refuted",
    "C23_empty_tuple_text_refuted",
    "C23_empty_set_text_refuted"
   ],
   "note": "any number of items except the empty tuple and the empty set, for which the property is false: Python does not read the text of the first and reads the second as a dict (refuted)"
  },
  {
   "property": "C24",
   "status": "proved",
   "theorems": [
    "C24_comprehension",
    "C24_dict_comprehension",
    "C24_generator_text",
    "C24_generator_items"
   ],
   "note": "list, tuple, set and dict comprehensions over any iterable of built-in values; generators from the source text, for every behaviour of the source, of the conditions and of the items (effects, exceptions, any state at each next()), as the last stage of any pipe; item and condition conversions in the fragment of C14 (generators: also that of C51)"
  },
  {
   "property": "C25",
   "status": "proved",
   "theorems": [
    "C25_sorted",
    "C25_sorted_dict",
    "C25_set_sort_raises"
   ],
   "note": "keys need to be comparable with each other (ordered); key functions without effects"
  },
  {
   "property": "C26",
   "status": "proved",
   "theorems": [
    "C26_tap_mutates_in_order",
    "C26_tap_failure",
    "C26_tap_outcomes",
    "C26_only_that_object",
    "C26_tap_refused",
    "C26_tap_arguments"
   ],
   "note": "order, identity of the tapped object and failure point for all objects and functions (abstract primitives); the frame on a heap of dicts, lists and instances; obj and operands in the fragment of C14"
  },
  {
   "property": "C27",
   "status": "proved",
   "theorems": [
    "C27_group_by_partitions",
    "C27_same_group",
    "C27_hypotheses_hold",
    "C27_keys_only_refuted"
   ],
   "note": "Row count, key order, and every reducer fed with exactly its group's rows, incl. the failing runs. Hypotheses: reducers sharing a code hash behave alike (C34) and unconditional_init is declared honestly; C27_hypotheses_hold shows when the latter holds. Refuted corner: group_by with keys only does not compile."
  },
  {
   "property": "C28",
   "status": "proved",
   "theorems": [
    "C28_sum",
    "C28_sum_or_none",
    "C28_count",
    "C28_count_distinct",
    "C28_distinct_spec",
    "C28_group_by_text",
    "C28_aggregate_text"
   ],
   "note": "for every list of rows and every pure expression. The two _text theorems show that the generated statements (as text, read by an independent statement reader) compute these reducers, in both loops."
  },
  {
   "property": "C29",
   "status": "proved",
   "theorems": [
    "C29_max_min",
    "C29_numbers_and_strings_are_ordered",
    "C28_group_by_text",
    "C28_aggregate_text"
   ],
   "note": "for values on which < is a total preorder; ints/bools and strings are shown to be so. The two _text theorems show that the generated statements (as text, read by an independent statement reader) compute these reducers, in both loops."
  },
  {
   "property": "C30",
   "status": "proved",
   "theorems": [
    "C30_sequences",
    "C28_group_by_text",
    "C28_aggregate_text"
   ],
   "note": "for every list of rows. The two _text theorems show that the generated statements (as text, read by an independent statement reader) compute these reducers, in both loops."
  },
  {
   "property": "C31",
   "status": "proved",
   "theorems": [
    "C31_dict_reducers_per_key",
    "C28_group_by_text",
    "C28_aggregate_text"
   ],
   "note": "all eleven dict reducers; sums compared as numbers (True == 1). The two _text theorems show that the generated statements (as text, read by an independent statement reader) compute these reducers, in both loops."
  },
  {
   "property": "C32",
   "status": "proved",
   "theorems": [
    "C32_filter_feeds_matching_rows",
    "C32_group_by_filters",
    "C32_default_when_nothing_found",
    "C32_aggregate_filters_partial"
   ],
   "note": "For group_by in full; for c.aggregate on the inputs where C33 holds."
  },
  {
   "property": "C33",
   "status": "partial",
   "theorems": [
    "C33_each_reducer_alone_partial",
    "C33_at_most_one_row_missed_partial",
    "C33_unfiltered_partial",
    "C33_each_reducer_alone_refuted",
    "C33_max_min_refuted",
    "C33_dishonest_unconditional_init_refuted"
   ],
   "note": "The property is false in general (the generated loop leaves the row early when the last reducer gets its first value); refuted by witnesses. Proved exactly under in_step / some reducer unset, and at most one row is missed in all other successful runs."
  },
  {
   "property": "C34",
   "status": "partial",
   "theorems": [
    "C34_group_by_partial",
    "C34_group_by_shares_partial",
    "C34_aggregate_partial",
    "C34_renaming_partial",
    "C34_group_by_results_partial",
    "C34_aggregate_results_partial",
    "C34_aggregate_digits_refuted",
    "C34_aggregate_wrong_result_refuted",
    "C34_inline_refuted"
   ],
   "note": "Exact text of the 23 built-in reducers' code and of callables, for all positions and all expression texts: equal hashes come from equal code, renaming the variable changes nothing else, and the results are those of each reducer alone. Missing: inline string reducers (false, C34_inline_refuted), initial= for Max/Min/MaxRow/MinRow/DictMax/DictMin, in aggregate codes containing the digits of 2^position (false, C34_aggregate_digits_refuted: Sum(item(1)), Sum(item(2)) give the same result). Sharing of mutable results (the same list object twice) is not modelled."
  },
  {
   "property": "C35",
   "status": "partial",
   "theorems": [
    "C35_initial_seeds_functions_partial",
    "C35_no_rows_refuted",
    "C35_builtin_initial_refuted"
   ],
   "note": "holds for functions/inline expressions with at least one row; false for the built-in reducers and for an empty group"
  },
  {
   "property": "C36",
   "status": "partial",
   "theorems": [
    "C36_keys_partial",
    "C36_as_on_a_row_partial",
    "C36_rejected_partial",
    "C36_constants_refuted",
    "C36_constant_changed_refuted",
    "C36_constant_key_refuted",
    "C36_prefix_refuted",
    "C36_pipe_refuted",
    "C36_optional_refuted"
   ],
   "note": "For every list of keys whose codes start with row_ (items, attributes, the row) and every output in which row_ is written only where the keys are and the keys can be told apart: the text search gives exactly the code with the group's key values at the places of the keys, in Dict/List/Tuple/Set outputs item by item and otherwise as a whole; that code evaluates like the output with the key values (also like the output on a row with those key values); any further use of the row gives ConversionException. The unconditional property is false: constants containing row_ are rejected or changed, constant keys corrupt numbers, an attribute whose name starts with the key's name is not rejected, a pipe into a collection loses its input, optional items raise."
  },
  {
   "property": "C37",
   "status": "proved",
   "theorems": [
    "C37_condition_split",
    "C37_piped_condition_refuted"
   ],
   "note": "Proved for conditions without c.LEFT/c.RIGHT inside the second part of a pipe and with hashable keys; false for the piped ones (refuted)."
  },
  {
   "property": "C38",
   "status": "partial",
   "theorems": [
    "C38_inner_join_partial",
    "C38_join_succeeds",
    "C38_iterator_loses_rows",
    "C38_right_filter_refuted",
    "C38_iterator_refuted"
   ],
   "note": "Exact cross product whenever the join has a key, or the right side is a list without right-only filters; otherwise false of the code (refuted)."
  },
  {
   "property": "C39",
   "status": "partial",
   "theorems": [
    "C39_left_join_partial",
    "C39_input_condition_refuted",
    "C39_right_filter_refuted"
   ],
   "note": "Needs the row-independent parts of the condition to be true and the right side to be rescannable; false otherwise (refuted)."
  },
  {
   "property": "C40",
   "status": "partial",
   "theorems": [
    "C40_right_join_partial",
    "C40_unswapped_keys_refuted",
    "C40_right_filter_refuted"
   ],
   "note": "Needs keys that are the same expression on both sides and no right-only filter; false otherwise (refuted)."
  },
  {
   "property": "C41",
   "status": "partial",
   "theorems": [
    "C41_outer_join_partial",
    "C41_none_row_refuted",
    "C41_input_condition_refuted"
   ],
   "note": "Needs no None among right rows (or every left row matched) and true row-independent parts; false otherwise (refuted)."
  },
  {
   "property": "C42",
   "status": "partial",
   "theorems": [
    "C42_strategy_unobservable_partial",
    "C42_unhashable_refuted"
   ],
   "note": "Equal pairs whenever both strategies succeed on a rescannable right side; unhashable keys distinguish them (refuted)."
  },
  {
   "property": "C43",
   "status": "partial",
   "theorems": [
    "C43_instance_partial",
    "C43_class",
    "C43_method_reads_the_instance_partial",
    "C43_falsy_instance_refuted",
    "C43_untestable_instance_refuted"
   ],
   "note": "Any callable; a truthy instance is the first argument, so is the class of a class-level call; compiled methods read the instance as input_arg('self'). False for instances whose truth value is false or raises: refuted with witnesses."
  },
  {
   "property": "C44",
   "status": "partial",
   "theorems": [
    "C44_call_partial",
    "C44_call_func_partial",
    "C44_call_method_partial",
    "C44_debug_refuted",
    "C44_predefined_input_refuted",
    "C44_func_refuted",
    "C44_method_name_refuted",
    "C44_keyword_name_refuted",
    "C44_as_type"
   ],
   "note": "All positional and keyword arguments in order, evaluated once, for keyword names other than those the library takes for itself; what happens with those names is proved as refutations."
  },
  {
   "property": "C45",
   "status": "proved",
   "theorems": [
    "C45_sources_stable_and_bounded"
   ],
   "note": "Every capacity >= 1 and every history."
  },
  {
   "property": "C46",
   "status": "partial",
   "theorems": [
    "C46_attr_partial",
    "C46_item",
    "C46_computed_attr",
    "C46_keyword_attr_refuted",
    "C46_attr_of_int_refuted"
   ],
   "note": "attr: every string that is not a keyword (for keywords the property is false: the code does not compile, refuted); item: every constant key; computed names always go through getattr"
  },
  {
   "property": "C47",
   "status": "partial",
   "theorems": [
    "C47_traceback_source_partial",
    "C47_traceback_source_refuted",
    "C47_purged_source_not_restored_refuted"
   ],
   "note": "False as stated when two converters draw the same random file name. Holds without clashes."
  },
  {
   "property": "C48",
   "status": "partial",
   "theorems": [
    "C48_compiling_leaves_reusable_partial",
    "C48_failed_compilation_refuted"
   ],
   "note": "Holds for successful compilations; a failed one loses the input link of the failing stage."
  },
  {
   "property": "C49",
   "status": "partial",
   "theorems": [
    "C49_compiling_in_threads_partial",
    "C49_single_stage",
    "C49_same_pipe_refuted",
    "C49_link_lost_refuted",
    "C49_nested_refuted"
   ],
   "note": "True when no stage with an input link is shared by, or visible to, another compilation (for every schedule); false for a shared pipe: three witnesses."
  },
  {
   "property": "C50",
   "status": "partial",
   "theorems": [
    "C50_calls_in_threads_partial",
    "C50_calls_end_partial",
    "C50_labels_refuted",
    "C50_label_deleted_refuted",
    "C50_cleanup_refuted"
   ],
   "note": "True for every schedule when overlapping calls of one converter use no labels; false with labels: three witnesses."
  },
  {
   "property": "C51",
   "status": "partial",
   "theorems": [
    "C51_source_computes_the_conversion_partial",
    "C51_helpers_do_not_clash_partial",
    "C51_equal_helper_names_refuted"
   ],
   "note": "The texts (helper functions and converter) are read and run by an independent semantics of Python source; the result is the conversion's. Missing: group_by, aggregate, join, lazily consumed generators other than as the last stage (C24), default indices with input arguments, truth tests with effects. Refuted when two helpers get one name (reuse of ids of freed clones)."
  },
  {
   "property": "C52",
   "status": "partial",
   "theorems": [
    "C52_nested_reduces_exactly",
    "C52_nested_reduce_rejected",
    "C52_reduces_of_output",
    "C52_reduces_of_aggregation_partial",
    "C52_foreign_reduce_refuted"
   ],
   "note": "Proved for every tree of plain conversions, containers, reduces, group_by/aggregate, joins and pipes: building fails with 'nested aggregation' exactly when a reduce is written inside a reduce or something with a reduce in it is piped into a reduce; the reduces of an aggregation are those written anywhere in its output, hence its own ones when no other aggregation is written in it. Refuted: with another aggregation in the output, its reduces are taken too."
  },
  {
   "property": "C53",
   "status": "partial",
   "theorems": [
    "C53_aggregate_text_partial",
    "C53_group_by_text_partial",
    "C53_aggregate_many_partial",
    "C53_group_by_many_partial",
    "C53_aggregate_partial",
    "C53_group_by_partial",
    "C53_sum_refuted",
    "C53_dict_sum_or_none_refuted"
   ],
   "note": "The generated text of an aggregate or group_by, for every list of built-in reducers with and without filter or initial=, is read as a function whose loops, run on a memory of objects with references, leave every object there before unchanged, whatever is shared and wherever it raises (expressions of the user stand as names). Sum and DictSumOrNone need values that are no containers; without that the claim is refuted: they use += on the value of the first row, so a list in the data is extended in place. Missing: initial= for the five reducers that index it (MaxRow, MinRow, DictSumOrNone, DictMax, DictMin), reducers given as functions or strings, and the result expression; user expressions, comparisons and additions are assumed not to change objects."
  },
  {
   "property": "C54",
   "status": "partial",
   "theorems": [
    "C54_group_by_partial",
    "C54_aggregate_partial",
    "C54_variables_partial",
    "C54_blocks_partial",
    "C54_constant_renamed_refuted"
   ],
   "note": "For all reduces (the 23 built-ins and functions, any readable expressions, filters, initial values), keys and names: the whole generated text is read by the reader of Spec_FuncText.v as the program of Spec_AggProgram.v over the blocks of the loop model of C27/C33; the variables are those of the loop model; every distinct reduce is in one block, under its own condition. Missing: inline reducers given as strings; expressions that contain the text of the variable of their reduce, where the claim is false (refuted)."
  },
  {
   "property": "C55",
   "status": "partial",
   "theorems": [
    "C55_group_by_partial",
    "C55_aggregate_partial",
    "C55_group_by_rows_partial",
    "C55_aggregate_rows_partial",
    "C55_group_by_sorted_partial",
    "C55_aggregate_sorted_partial",
    "C55_class",
    "C55_no_reduce_refuted",
    "C55_argument_overwritten_refuted"
   ],
   "note": "Text to rows: the generated text is read as a function (Spec_FuncText.v) and the function is run by a semantics of Python statements with variables, attributes, shared objects and iterators (Spec_FuncRun.v). First two theorems: the run equals the loop of the model followed by the value of the result, errors included. Rows: any output made of keys, reduces (with post-processing and default=), expressions that mention neither the row nor reduces, in tuples, lists, sets, dicts, calls, operators, items, and/or and conditions, nested (operators other than + and comparisons are oracles). With sort(): the same rows, stably sorted by the key function. Every built-in reducer with its post-processing (what the dict comprehensions of DictArrayDistinct and DictCountDistinct give is assumed of Python). Missing: attributes, methods and comprehensions over reduces in the rows theorems, reducers written as strings. The class of the groups: its text is read as a class whose instances have the attributes the rows theorems assume (C55_class). Refuted: an aggregation without reduces (distinct keys) generates a class without a constructor body, not Python; an input argument named like a variable of the generated function is overwritten."
  },
  {
   "property": "C56",
   "status": "proved",
   "theorems": [
    "C56_all_pairs",
    "C56_nothing_else",
    "C56_lazy",
    "C56_after_other_calls",
    "C56_thrown",
    "C56_closed",
    "C56_first_pairs_inner",
    "C56_first_pairs_left"
   ],
   "note": "For every join: next() in order until StopIteration gives exactly Model_Join.join; the first k pairs do not depend on, and do not read, anything after the row they come from; earlier calls do not matter; what is thrown in comes out, and a generator thrown into or closed gives nothing more and leaves no labels. Generators used at the same time are excluded by the statement (see C21, C56_overlapping_joins_refuted)."
  },
  {
   "property": "C57",
   "status": "proved",
   "theorems": [
    "C57_text_runs",
    "C57_all_pairs",
    "C57_first_pairs"
   ],
   "note": "Model_JoinText.v gives the text character by character; it is read by Spec_Source.reads_function and run by the generator semantics Spec_GenRun.v (frames, scopes, generators resumed one step at a time, labels); what next() gives is what Model_JoinLazy gives (C56) and hence Model_Join.join (C38-C42). Not covered: conditions with c.this() or pipes, input arguments named like a name of the generated code (left, right, left_item, ...), layout by black. _left_joiner and _add_right_part are transcribed as trees (Model_JoinFuncs.v), the index function is taken as the fold of aggregations.py:379-390 (C54, C55 are about its text)."
  },
  {
   "property": "C58",
   "status": "proved",
   "theorems": [
    "C58_inline_is_the_template_with_its_arguments",
    "C58_template_text",
    "C58_missing_argument",
    "C58_operators",
    "C58_unary_and_slice",
    "C58_power_of_negative_constant_refuted"
   ],
   "note": "Templates of any length, arguments of any kind nested to any depth. stands_for (Props_Inline.v) defines the expression by substitution in the tree of the template; the conditions on the holes are decidable functions in Spec_Inline.v. The refuted theorem shows that the condition on int constants is needed. Not covered: an inline expression below other conversions, format specifications."
  },
  {
   "property": "C59",
   "status": "partial",
   "theorems": [
    "C59_filter",
    "C59_filter_callable",
    "C59_filter_method",
    "C59_second_filter_replaces",
    "C59_second_cast_raises",
    "C59_filter_twice_refuted",
    "C59_filter_groups",
    "C59_second_group_filter"
   ],
   "note": "For every cast and condition c.filter gives the collection of the items whose condition is truthy, from the comprehension template of C23/C24 to the value. Partial because filtering a filtered comprehension replaces the first condition instead of adding to it: C59_filter_twice_refuted. The filter method of aggregations (GroupBy.filter, default cast list) is C59_filter_groups, for any conversion standing for the aggregation."
  },
  {
   "property": "C60",
   "status": "partial",
   "theorems": [
    "C60_comprehension_filter",
    "C60_comprehension_sort",
    "C60_pass_args",
    "C60_group_by_sort",
    "C60_aggregate",
    "C60_reduce_filter_in_place",
    "C60_filtered_reduces_are_one",
    "C60_label_reaches_clones",
    "C60_clone_shares_labels",
    "C60_label_twice_raises",
    "C60_aggregate_is_reusable_refuted",
    "C60_reduce_filter_is_reusable_refuted",
    "C60_label_on_clone_refuted"
   ],
   "note": "Proved for filter and sort of comprehensions, pass_args and sort of a group_by. The claim is false for Reduce.filter (changes the reduce), for aggregate (adds input arguments to the group_by; its definition stays) and for add_label on a labelled conversion (changes it and its clones); what happens instead is proved for all states, with the refutations. The objects inside the heap are given by their attributes; code generation from them is C10, C13 and others."
  },
  {
   "property": "C61",
   "status": "partial",
   "theorems": [
    "C61_structures_partial",
    "C61_mutations_refused",
    "C61_slices",
    "C61_empty_refuted"
   ],
   "note": "Every nested structure of dicts, lists, non-empty tuples and sets, constants, objects and conversions, from ensure_conversion to the value the compiled converter returns. False for the empty tuple and the empty set (C61_empty_refuted). Slices: the text of the call slice(start, stop, step) only. Missing: the values of slices, subclasses of the built-in containers, optional items (C22)."
  },
  {
   "property": "C62",
   "status": "partial",
   "theorems": [
    "C62_accepted_exactly",
    "C62_expr",
    "C62_pair",
    "C62_additional_args",
    "C62_initial",
    "C62_default",
    "C62_unconditional_init",
    "C62_default_without_input",
    "C62_piped_pair_refuted",
    "C62_default_input_refuted"
   ],
   "note": "Acceptance is exact for all reducers and all arguments; every part has the value that what was passed stands for (means of C61), or the reducer's own. False for pairs that something is piped into (the pipe is dropped: C62_piped_pair_refuted) and for defaults that use their input (C62_default_input_refuted). Collections with optional items as the pair of a dict reducer are not modelled."
  },
  {
   "property": "C63",
   "status": "partial",
   "theorems": [
    "C63_operators_partial",
    "C63_computes",
    "C63_comparisons_mirror",
    "C63_constant_on_the_left_refused",
    "C63_chain",
    "C63_chain_refuted",
    "C63_keywords",
    "C63_in_is",
    "C63_many",
    "C63_many_determined"
   ],
   "note": "Every expression with a conversion on the left of each operator (a constant may be on the left of a comparison when comparisons mirror, proved for Python's built-in values), over any objects and effects, for the conversions C14 covers. False or refused for what a class cannot overload: chained comparisons lose all but the last part, and/or/not look at the conversion object, x in conversion is True, conversion is constant is False, constants on the left of arithmetic raise TypeError. or_/and_/eq with any number of arguments: C63_many. Missing: other plain objects as operands."
  },
  {
   "property": "C64",
   "status": "partial",
   "theorems": [
    "C64_call_partial",
    "C64_method_partial",
    "C64_parameters",
    "C64_self_refuted",
    "C64_execute",
    "C64_execute_debug",
    "C64_execute_debug_refuted"
   ],
   "note": "Every conversion C14 covers, any objects and effects, every call. Not for input arguments in a sort key (C13_sort_key_refuted) and arguments called data_ or like a variable of the generated code; self and cls only for methods (C64_method_partial; otherwise C64_self_refuted). False for execute and an input argument called debug (C64_execute_debug)."
  }
 ]
}