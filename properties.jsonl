{"id": "C01", "title": "The recently-used cache never exceeds its capacity and never loses track of an entry", "statement": "After any sequence of set/get/has calls on a cache created with max_size >= 1 (and a non-raising eviction callback), the cache holds at most max_size entries, and the set of keys it can answer for is exactly the set of keys it will consider for eviction, each exactly once (no leaked entry that can never be evicted, no ghost key).", "quantifier": "every max_size >= 1, every finite history of set/get/has(bump or not) over every key and value", "why_tests_cant": "the invariant has to survive every history and every pattern of touched keys; a test fixes one history", "anchors": ["src/convtools/utils.py:RUCache.set", "src/convtools/utils.py:RUCache._evict"]}
{"id": "C02", "title": "The cache returns the last value set, and every removed entry is reported exactly once with that value", "statement": "get(k) returns the value of the most recent set(k, v) if k was not evicted since, and the default otherwise; the eviction callback is called exactly once for each entry that disappears, with the key and the last value set for it, and never for an entry that is still there.", "quantifier": "every history of set/get/has, every max_size >= 1", "why_tests_cant": "refinement over unbounded histories; interleavings of overwrites, touches and evictions are unbounded", "anchors": ["src/convtools/utils.py:RUCache.get", "src/convtools/utils.py:RUCache.set", "src/convtools/utils.py:RUCache._evict"]}
{"id": "C03", "title": "Eviction gives touched entries a second chance", "statement": "When a new key is set on a full cache exactly one entry is evicted: the oldest-queued entry that was not touched (get / overwritten / has(bump_up=True)) since it was queued, or the oldest-queued one if all were touched; touched entries that were passed over move, in order, to the young end and lose their mark; the other entries keep their order and marks.", "quantifier": "every reachable full cache, every new key", "why_tests_cant": "all touch patterns over all capacities", "anchors": ["src/convtools/utils.py:RUCache._evict"]}
{"id": "C04", "title": "Leaving an options context restores the options of the enclosing one", "statement": "For any properly nested use of `with OptionsCtx()` (any depth, any number of blocks in sequence, blocks left by exceptions included) the option values visible after a block ends are the ones that were visible just before it began.", "quantifier": "every well-nested history of enter/exit/assignments, every depth", "why_tests_cant": "depth and sequencing are unbounded; the test-suite only nests two levels", "anchors": ["src/convtools/utils.py:BaseCtx.__enter__", "src/convtools/utils.py:BaseCtx.__exit__", "src/convtools/utils.py:BaseCtx.get_option_value"]}
{"id": "C05", "title": "Options are inherited inwards and never leak outwards", "statement": "Entering a context makes every option value of the enclosing context (or the class defaults if there is none) visible inside; assignments made inside, or to_defaults() calls, change only the inner context's values.", "quantifier": "every option set, every sequence of assignments at every level", "why_tests_cant": "needs all assignment sequences and all option names", "anchors": ["src/convtools/utils.py:BaseOptions.clone", "src/convtools/utils.py:BaseOptions.to_defaults", "src/convtools/utils.py:BaseCtx.__enter__"]}
{"id": "C06", "title": "Options contexts of different threads do not interfere", "statement": "What a thread observes through an options context depends only on that thread's own enter/exit/assign/read operations, whatever the other threads do and however the operations interleave.", "quantifier": "every number of threads, every interleaving", "why_tests_cant": "schedules cannot be enumerated by tests", "anchors": ["src/convtools/utils.py:BaseCtxMeta", "src/convtools/utils.py:BaseCtx"]}
{"id": "C07", "title": "Generated variable names are unique and stable", "statement": "Within one compilation, asking for a name with the same prefix and the same hash returns the same name, different (prefix, hash) pairs get different names, every name starts with its prefix; the only other outcome is the 'failed to generate' error after ten random collisions.", "quantifier": "every sequence of name requests, every outcome of the random generator", "why_tests_cant": "the random source is adversarially quantified; tests see one seed", "anchors": ["src/convtools/base.py:BaseConversion.gen_name"]}
{"id": "C08", "title": "An embedded object is the object the converter sees", "statement": "When several objects/functions are embedded into one converter (c.naive, c.call_func, ...), each reference in the generated code resolves at run time to the very object it was built from.", "quantifier": "every finite list of embedded objects with any hashes", "why_tests_cant": "collisions of hash()/code objects are a matter of all inputs; the suite uses a handful of objects", "anchors": ["src/convtools/base.py:NaiveConversion._gen_code_and_update_ctx", "src/convtools/base.py:BaseConversion._hash_item", "src/convtools/base.py:BaseConversion.gen_name"]}
{"id": "C09", "title": "String and integer constants survive code generation", "statement": "For every str s and every int n (of exactly those types), the source text emitted for the constant is one Python literal (or signed literal) that denotes s, respectively n.", "quantifier": "every string over all code points, every integer", "why_tests_cant": "quotes, backslashes, control and non-printable characters combine without bound", "anchors": ["src/convtools/base.py:NaiveConversion._gen_code_and_update_ctx"]}
{"id": "C10", "title": "Operator expressions keep the structure the user wrote", "statement": "The text generated for any nesting of items, attributes, calls, operators, comparisons, and/or/not/if, collections and comprehensions parses, under Python's operator precedence, to exactly the tree the user built: no operand is captured by a neighbouring operator and no comparison becomes an accidental chain.", "quantifier": "every conversion tree of the modelled constructors, any depth", "why_tests_cant": "precedence interactions are quantified over all nestings", "anchors": ["src/convtools/base.py:InlineExpr._gen_code_and_update_ctx", "src/convtools/base.py:Or._gen_code_and_update_ctx", "src/convtools/base.py:GetItem._gen_code_and_update_ctx", "src/convtools/base.py:Call._gen_code_and_update_ctx"]}
{"id": "C11", "title": "Conversions are reusable: piping never changes its operands", "statement": "a.pipe(b) returns a conversion whose stages are those of a followed by those of b, and leaves every previously existing conversion object (a, b and everything they refer to) unchanged, so both can be reused in any number of other conversions.", "quantifier": "every heap of conversion objects, every pair of pipelines (including a piped into itself)", "why_tests_cant": "sharing patterns between conversion objects are unbounded", "anchors": ["src/convtools/base.py:BaseConversion.pipe", "src/convtools/base.py:BaseConversion.clone", "src/convtools/base.py:BaseConversion.set_predefined_input"]}
{"id": "C12", "title": "The max_pipe_length limit is enforced exactly", "statement": "pipe either raises ConversionException because of the limit, or succeeds; it raises exactly when the left pipeline has more than max_pipe_length stages or the right one has max_pipe_length or more; it never loops for ever.", "quantifier": "every limit, every pair of pipeline lengths", "why_tests_cant": "off-by-one behaviour over all lengths", "anchors": ["src/convtools/base.py:BaseConversion.clone", "src/convtools/base.py:BaseConversion.set_predefined_input"]}
{"id": "C13", "title": "The converter signature lists exactly the input arguments used", "statement": "Without an explicit signature, the compiled converter takes data_ plus, as keyword-only parameters in alphabetical order, each input argument used anywhere in the conversion exactly once (labels and self/cls excluded); with an explicit signature, generation fails exactly when one of the used arguments is missing from it.", "quantifier": "every conversion tree, every signature", "why_tests_cant": "needs dependency tracking to be complete over all nestings", "anchors": ["src/convtools/base.py:BaseConversion.get_args", "src/convtools/base.py:BaseConversion.get_args_def_code", "src/convtools/base.py:BaseConversion.gen_converter", "src/convtools/base.py:BaseConversion.get_dependencies"]}
{"id": "C14", "title": "Compiled code means what the conversion says (with effects)", "statement": "For conversions in which every nested input is a plain variable, running the compiled expression on an input gives exactly the result, exceptions and sequence of side effects of the direct call-by-value reading of the conversion, whatever the user's functions and objects do.", "quantifier": "every conversion tree of the fragment, every behaviour (stateful, raising) of the called functions, every input", "why_tests_cant": "user functions are arbitrary; trees are unbounded", "anchors": ["src/convtools/base.py:_gen_code_and_update_ctx (all expression conversions)"]}
{"id": "C15", "title": "Compiled code means what the conversion says (nested pipes, side-effect-free functions)", "statement": "For any nesting of pipes and conditionals, if the called functions are free of side effects then the compiled expression yields the value (or exception) of the direct reading of the conversion.", "quantifier": "every conversion tree of the fragment, every pure behaviour of the called functions, every input", "why_tests_cant": "input code is substituted textually at any number of places; needs all trees", "anchors": ["src/convtools/base.py:BaseConversion.gen_code_and_update_ctx", "src/convtools/base.py:If._gen_code_and_update_ctx"]}
{"id": "C16", "title": "Top-level pipe stages run once each, in order", "statement": "A converter compiled from s1.pipe(s2)....pipe(sn) evaluates s1 on the input, then s2 on its result and so on, each exactly once; if a stage raises, the later ones do not run.", "quantifier": "every number of stages, every stage conversion, every effectful behaviour", "why_tests_cant": "counts of evaluations for all pipelines", "anchors": ["src/convtools/base.py:BaseConversion.gen_converter"]}
{"id": "C17", "title": "item/attr with a default returns the looked-up value or the default", "statement": "c.item(k1..kn, default=d) and c.attr(..., default=d) return the value of the chain of lookups if it does not fail, d if it fails with TypeError/KeyError/IndexError/AttributeError, and propagate any other exception.", "quantifier": "every path length, every kind of index (constants, nested conversions, input args), every input", "why_tests_cant": "all paths and failing positions; the suite only uses constant keys and this()-based indexes", "anchors": ["src/convtools/base.py:GetItem._gen_code_and_update_ctx", "src/convtools/base.py:GET_OR_DEFAULT_TEMPLATE"]}
{"id": "C18", "title": "if_ evaluates its input once and picks the right branch", "statement": "x.pipe(c.if_(cond, t, f)) evaluates x, then cond on it, then only the selected branch on that same value; x is not evaluated again for the branch.", "quantifier": "every condition and branch conversion, every input expression, every behaviour", "why_tests_cant": "depends on how the condition uses its input, over all conditions", "anchors": ["src/convtools/base.py:If._gen_code_and_update_ctx", "src/convtools/base.py:CachingConversion._gen_code_and_update_ctx"]}
{"id": "C19", "title": "Labels name the value computed at that point", "statement": "add_label/label_input/label_output evaluate the labelled conversion once, store it under the plain label and the post-processed values under theirs in the order given, pass the labelled value on unchanged, and c.label(name) used later in the same call returns the stored value.", "quantifier": "every number of labels, every post-processing conversion, falsy and truthy values alike, every later use", "why_tests_cant": "the `or` chain must work for all values including falsy ones, and all later code", "anchors": ["src/convtools/base.py:CachingConversion", "src/convtools/base.py:LabelConversion", "src/convtools/base.py:BaseConversion.pipe"]}
{"id": "C20", "title": "No labelled value survives a finished call", "statement": "When a converter call has finished - returned a non-generator, raised, or its generator was exhausted, raised or was closed after being started - the converter holds no labelled value any more; so the outcome of a call that returns a non-generator does not depend on earlier calls.", "quantifier": "every history of calls with every outcome", "why_tests_cant": "histories and failure points are unbounded", "anchors": ["src/convtools/base.py:_ConverterCallable.__call__", "src/convtools/base.py:_ConverterCallable.wrap_generator_clean_labels_on_exit"]}
{"id": "C21", "title": "Calls of one converter whose generators overlap do not disturb each other", "statement": "If a converter returns generators, consuming two of them in any interleaving yields for each what it would have yielded alone.", "quantifier": "every interleaving of two or more pending generators", "why_tests_cant": "interleavings", "anchors": ["src/convtools/base.py:_ConverterCallable.__call__", "src/convtools/base.py:BaseConversion.gen_converter (labels_)"]}
{"id": "C22", "title": "Optional collection items appear exactly when their condition holds", "statement": "A list/tuple/set/dict conversion with c.optional items contains, in the given order, every non-optional item and exactly those optional items whose condition holds (value is not None / value != skip_value / not skip_if / keep_if; for dict entries both the key's and the value's condition), the other values are not evaluated.", "quantifier": "every number and position of optional items, every condition kind, every input", "why_tests_cant": "all combinations of optional and mandatory items", "anchors": ["src/convtools/base.py:OptionalCollectionItem", "src/convtools/base.py:BaseCollectionConversion.gen_optional_items_generator_code", "src/convtools/base.py:Dict.prepare_optional_items"]}
{"id": "C23", "title": "Collection conversions build the collection type that was asked for, whatever the number of items", "statement": "c.list/c.tuple/c.set/c.dict (and the literals wrapped by c()) with n items compile and produce a list/tuple/set/dict of the n evaluated items, for every n >= 0.", "quantifier": "every number of items, including zero", "why_tests_cant": "the empty case and one-element tuples are boundary cases of an unbounded family", "anchors": ["src/convtools/base.py:Tuple", "src/convtools/base.py:Set", "src/convtools/base.py:List", "src/convtools/base.py:Dict"]}
{"id": "C24", "title": "Comprehensions map and filter in order", "statement": "list_comp/tuple_comp/generator_comp(item).filter(cond) yields item(x) for exactly those x of the input with truthy cond(x), in input order; set_comp the set of them; dict_comp maps each key to the last value produced for it, keys in order of first appearance.", "quantifier": "every input length, every item and condition conversion", "why_tests_cant": "unbounded inputs", "anchors": ["src/convtools/base.py:BaseComprehensionConversion", "src/convtools/base.py:DictComp"]}
{"id": "C25", "title": "sort() returns a stable ordered permutation", "statement": "sort(key, reverse) on a list/tuple comprehension yields a permutation of the unsorted result in which keys are non-decreasing (non-increasing when reverse=True) and equal keys keep their input order in both directions; the dict comprehension holds the last value per key, at the place of the key's first occurrence in the sorted sequence.", "quantifier": "every input, key and direction", "why_tests_cant": "unbounded inputs and ties", "anchors": ["src/convtools/base.py:BaseComprehensionConversion.sort", "src/convtools/base.py:ListComp.gen_sort_code", "src/convtools/base.py:DictComp.gen_sort_code"]}
{"id": "C26", "title": "tap applies the mutations in order to the tapped object itself", "statement": "obj.tap(m1..mn) evaluates obj once, applies m1..mn in order (each seeing the effects of the previous ones) to that very object and returns it; nothing but that object is changed by set_item/del_item/set_attr/del_attr; if m_i raises, m_1..m_(i-1) stay applied and the later ones are not.", "quantifier": "every list of mutations, every heap, every failure point", "why_tests_cant": "all mutation sequences and aliasing patterns", "anchors": ["src/convtools/base.py:TapConversion", "src/convtools/mutations.py"]}
{"id": "C27", "title": "group_by partitions the input", "statement": "group_by(keys).aggregate(...) returns one item per distinct key (by ==) in order of first appearance, and every reduce of a group is fed with exactly the rows of that group, in input order.", "quantifier": "every input sequence, every key function, every list of reducers", "why_tests_cant": "unbounded inputs and interleavings of groups", "anchors": ["src/convtools/aggregations.py:GROUPER_TEMPLATE", "src/convtools/aggregations.py:GroupBy._gen_code_and_update_ctx"]}
{"id": "C28", "title": "Sum, SumOrNone, Count, CountDistinct compute what they promise", "statement": "Over the rows of a group: Sum is the sum of the non-None values (falsy ones count as 0), SumOrNone is the sum, or None as soon as one value is None, Count is the number of rows, CountDistinct the number of distinct values (by ==); 0/None/0/0 when there was nothing to reduce.", "quantifier": "every sequence of values", "why_tests_cant": "unbounded sequences; position of None matters", "anchors": ["src/convtools/aggregations.py:_Sum", "src/convtools/aggregations.py:_SumOrNone", "src/convtools/aggregations.py:_Count", "src/convtools/aggregations.py:_CountDistinct"]}
{"id": "C29", "title": "Max, Min, MaxRow, MinRow ignore None and take the first extreme row", "statement": "Max/Min return the greatest/least non-None value, MaxRow/MinRow the first row attaining it, None if there is no non-None value.", "quantifier": "every sequence of values and rows", "why_tests_cant": "unbounded sequences, ties, leading Nones", "anchors": ["src/convtools/aggregations.py:_Max", "src/convtools/aggregations.py:_Min", "src/convtools/aggregations.py:_MaxRow", "src/convtools/aggregations.py:_MinRow"]}
{"id": "C30", "title": "First, Last, Array, ArrayDistinct keep order", "statement": "First/Last return the first/last value (None included), Array all values in order, ArrayDistinct the distinct values (by ==) in order of first appearance.", "quantifier": "every sequence of values", "why_tests_cant": "unbounded sequences", "anchors": ["src/convtools/aggregations.py:_First", "src/convtools/aggregations.py:_Last", "src/convtools/aggregations.py:_Array", "src/convtools/aggregations.py:_ArrayDistinct"]}
{"id": "C31", "title": "Dict* reducers apply the plain reducer per key", "statement": "Dict, DictArray, DictArrayDistinct, DictSum, DictSumOrNone, DictMax, DictMin, DictCount, DictCountDistinct, DictFirst, DictLast return a dict whose keys are the distinct keys in order of first appearance (for DictMax/DictMin: keys having a non-None value) and whose value for a key is the corresponding plain reduction of the values paired with that key.", "quantifier": "every sequence of key/value pairs", "why_tests_cant": "unbounded sequences and key interleavings", "anchors": ["src/convtools/aggregations.py:_Dict", "src/convtools/aggregations.py:_DictArray", "src/convtools/aggregations.py:_DictArrayDistinct", "src/convtools/aggregations.py:_DictSum", "src/convtools/aggregations.py:_DictSumOrNone", "src/convtools/aggregations.py:_DictMax", "src/convtools/aggregations.py:_DictMin", "src/convtools/aggregations.py:_DictCount", "src/convtools/aggregations.py:_DictCountDistinct", "src/convtools/aggregations.py:_DictFirst", "src/convtools/aggregations.py:_DictLast"]}
{"id": "C32", "title": "reduce(...).filter(cond) and default", "statement": "A filtered reduce is fed with exactly the rows of its group satisfying the condition, independently of the filters of the other reducers; if none does (or the reducer found nothing), the result is the default.", "quantifier": "every list of reducers with every combination of filters, every input", "why_tests_cant": "all combinations of filters and rows", "anchors": ["src/convtools/aggregations.py:Reduce.filter", "src/convtools/aggregations.py:ReduceConditionalBlock", "src/convtools/aggregations.py:ReduceBlocks"]}
{"id": "C33", "title": "In c.aggregate every reducer sees every row", "statement": "c.aggregate with several reducers gives for each of them the value it would give if it were the only one.", "quantifier": "every input, every list of reducers (any filters, any order)", "why_tests_cant": "depends on which reducer gets initialised on which row: all combinations", "anchors": ["src/convtools/aggregations.py:AGGREGATE_TEMPLATE", "src/convtools/aggregations.py:ReduceBlock.get_template"]}
{"id": "C34", "title": "Sharing of identical reducers is invisible", "statement": "When two reducers of one aggregation are computed only once because they are considered identical, the result is the same as if both had been computed.", "quantifier": "every pair of reducers at every position, in group_by and aggregate", "why_tests_cant": "the identity test works on program text with parts erased; all texts matter", "anchors": ["src/convtools/aggregations.py:ReduceBlock.code_hash", "src/convtools/aggregations.py:GroupBy._gen_code_and_update_ctx"]}
{"id": "C35", "title": "initial seeds the reduction", "statement": "c.reduce(f, expr, initial=i) yields f(...f(f(i, e1), e2)..., en) over the rows of the group, for functions, expressions and the built-in ReduceFuncs alike.", "quantifier": "every input, every reducer", "why_tests_cant": "all reducers times all inputs", "anchors": ["src/convtools/aggregations.py:_ReducerExpression.gen_reduce_initial", "src/convtools/aggregations.py:_ReducerStatements.gen_reduce_initial"]}
{"id": "C36", "title": "Group keys may be used freely in the aggregate output", "statement": "In group_by(k1..kn).aggregate(out), occurrences of ki in out denote the group's key value, constants in out denote themselves, anything else that needs a row is rejected with ConversionException.", "quantifier": "every key and output conversion", "why_tests_cant": "keys are found by textual search in generated code: all texts matter", "anchors": ["src/convtools/aggregations.py:GroupBy._gen_reducer_result_item", "src/convtools/aggregations.py:GroupBy._rebuild_reducer_result"]}
{"id": "C37", "title": "Splitting a join condition preserves it", "statement": "For every pair of rows, the join condition holds iff all equality keys agree, all single-sided filters, all input-only filters and all remaining conditions hold, as the join splits them.", "quantifier": "every condition tree (nested ands, multi-way eq, one-sided and input-only parts), every pair of rows", "why_tests_cant": "unbounded condition trees", "anchors": ["src/convtools/joins.py:_JoinConditions.from_condition", "src/convtools/joins.py:_JoinConditions.consume_eq", "src/convtools/joins.py:_JoinConditions.consume_and", "src/convtools/joins.py:_JoinConditions.consume_other"]}
{"id": "C38", "title": "Inner join is the filtered cross product", "statement": "c.join(l, r, cond) yields exactly the pairs (x, y) with x in l, y in r and cond(x, y), ordered by x then y.", "quantifier": "every pair of collections, every condition", "why_tests_cant": "unbounded collections and conditions, choice of join strategy", "anchors": ["src/convtools/joins.py:join"]}
{"id": "C39", "title": "Left join keeps every left row", "statement": "how='left' yields, for each left row in order, its matching pairs in right order or (row, None) if it has none.", "quantifier": "every pair of collections, every condition", "why_tests_cant": "unbounded collections and conditions", "anchors": ["src/convtools/joins.py:join (_left_joiner)"]}
{"id": "C40", "title": "Right join mirrors left join", "statement": "how='right' yields, for each right row in order, its matching pairs in left order or (None, row) if it has none.", "quantifier": "every pair of collections, every condition", "why_tests_cant": "unbounded collections and conditions; only a symmetric condition is tested", "anchors": ["src/convtools/joins.py:join (_left_joiner_swapped)"]}
{"id": "C41", "title": "Outer join keeps every row of both sides", "statement": "how='outer'/'full' yields the left join followed by (None, y) for each right row y, in order, that matched no left row.", "quantifier": "every pair of collections, every condition", "why_tests_cant": "unbounded collections and conditions", "anchors": ["src/convtools/joins.py:join (_add_right_part)"]}
{"id": "C42", "title": "The join strategy is unobservable", "statement": "Whether a condition is run as a hash lookup or in the inner loop does not change the joined pairs or their order.", "quantifier": "every condition written with two-sided equalities or with an equivalent opaque form, every pair of collections", "why_tests_cant": "unbounded", "anchors": ["src/convtools/joins.py:join", "src/convtools/joins.py:_JoinConditions.consume_eq"]}
{"id": "C43", "title": "A converter used as a method receives the instance it is called on", "statement": "A converter stored as a class attribute and called through an instance gets that instance as first argument, and through the class gets the class.", "quantifier": "every instance, whatever its truth value", "why_tests_cant": "depends on user-defined truthiness", "anchors": ["src/convtools/base.py:_ConverterCallable.__get__", "src/convtools/base.py:_ConverterCallableMethod"]}
{"id": "C44", "title": "Call conversions pass on exactly the given arguments", "statement": "c.call_func(f, *args, **kwargs) / .call / .call_method call f with exactly the evaluated positional arguments and keyword arguments that were given, under the given names.", "quantifier": "every argument list and every keyword name", "why_tests_cant": "all keyword names", "anchors": ["src/convtools/base.py:Call", "src/convtools/base.py:BaseConversion.__init__", "src/convtools/base.py:CallFunc"]}
{"id": "C45", "title": "Registered sources are never silently replaced and the shared line cache stays bounded", "statement": "A generated file name is bound to one source text per converter (re-registering a different text raises), and however many converters are compiled, at most the configured number of generated files is in the line cache, every one of them being tracked for eviction.", "quantifier": "every history of compilations and failing calls", "why_tests_cant": "unbounded histories", "anchors": ["src/convtools/base.py:_ConverterCallable.add_sources", "src/convtools/base.py:_ConverterCallable.populate_line_cache", "src/convtools/base.py:clean_line_cache"]}
{"id": "C46", "title": "attr and item lookups compile to the lookup that was asked for", "statement": "c.attr(name) performs getattr(input, name) for every string name, c.item(k) performs input[k].", "quantifier": "every attribute name", "why_tests_cant": "all names, including keywords and non-identifiers", "anchors": ["src/convtools/base.py:GetAttr.wrap_path_item", "src/convtools/base.py:GetItem.wrap_path_item"]}
{"id": "C47", "title": "A traceback shows the source of the converter that failed", "statement": "When a compiled converter raises, every line-cache entry for its generated file names holds the source text of this converter.", "quantifier": "every history of compilations and failing calls of any number of converters, every outcome of the random generator", "why_tests_cant": "generated file names are random; a clash between two converters is invisible in a test-suite", "anchors": ["src/convtools/base.py:_ConverterCallable.populate_line_cache", "src/convtools/base.py:BaseConversion.gen_name"]}
{"id": "C48", "title": "Compiling a conversion leaves it reusable", "statement": "gen_converter() leaves the conversion and all its stages as they were, so compiling it again, or using it inside other conversions, gives the same converter - also when a compilation attempt failed.", "quantifier": "every pipeline, every stage that may fail to generate code", "why_tests_cant": "failure points are quantified over all stages", "anchors": ["src/convtools/base.py:BaseConversion.gen_converter"]}
{"id": "C49", "title": "Compiling in several threads is safe", "statement": "gen_converter() called in several threads at the same time, on the same or on different conversions, gives in each thread the converter it gives when called alone, and leaves all conversions as they were.", "quantifier": "every number of threads, every interleaving of the steps of gen_converter, every heap of piped conversions", "why_tests_cant": "the window in which gen_converter has detached a stage from its input is a few instructions wide; no test schedules it", "anchors": ["src/convtools/base.py:BaseConversion.gen_converter"]}
{"id": "C50", "title": "Calling compiled converters from several threads is safe", "statement": "Calls of compiled converters made in several threads at the same time each give the result they give alone, and leave no labels behind.", "quantifier": "every number of calls, every interleaving of their steps, every use of labels", "why_tests_cant": "the label dict is shared by all calls of one converter; interference needs a particular schedule", "anchors": ["src/convtools/base.py:_ConverterCallable.__call__", "src/convtools/base.py:BaseConversion.gen_converter"]}
{"id": "C51", "title": "The generated source computes the conversion", "statement": "The Python source that gen_converter compiles - the helper functions of the conversion and the converter itself, executed one after the other in one namespace - is valid Python, and calling the function it defines, with the data and the input arguments, gives the result, the calls of user functions and the labels the conversion stands for; every part of the code calls the helper function made for it.", "quantifier": "every conversion built of paths, defaults, operators, calls, collections with optional items, comprehensions, conditionals, labels, pipes and mutations; every choice of names; every behaviour of Python's objects, operators and user functions; every input", "why_tests_cant": "the code is generated text; which names meet in one namespace, and how deeply expressions and helpers nest, depends on the conversion", "anchors": ["src/convtools/base.py:BaseConversion.gen_converter", "src/convtools/base.py:GetItem", "src/convtools/base.py:OptionalCollectionItem", "src/convtools/base.py:If", "src/convtools/base.py:LabelConversion", "src/convtools/mutations.py:TapConversion"]}
{"id": "C52", "title": "An aggregation computes exactly its own reduces", "statement": "Building a conversion in which a c.reduce(...) is written inside another c.reduce(...), at any depth, or something with a reduce in it is piped into a c.reduce(...), raises AssertionError, and no other conversion does; the values an aggregation accumulates over its rows are those of the reduces written in its output, wherever in the output they are written, and not those of other aggregations.", "quantifier": "all conversions made of plain conversions, containers, reduces, group_by/aggregate with sort, joins and pipes, at any nesting", "why_tests_cant": "where reduces may be nested is unlimited, and the search for them follows objects that are cloned by pipe and aggregate", "anchors": ["src/convtools/aggregations.py:Reduce.depends_on", "src/convtools/aggregations.py:GroupBy.aggregate", "src/convtools/base.py:BaseConversion.get_dependencies"]}
{"id": "C53", "title": "Aggregations leave the data alone", "statement": "Running c.aggregate or c.group_by(...).aggregate with the built-in reducers changes no object that existed before the run - rows, their items, values they share - whether the run completes or an expression raises half-way; only objects the run itself made are changed.", "quantifier": "every built-in reducer, with or without filter; every memory, every way the values of rows share objects; every number of rows and groups; every point at which an expression, comparison, hash or addition raises", "why_tests_cant": "whether a value of the data is changed in place depends on which objects are shared; tests compare results, not the inputs afterwards", "anchors": ["src/convtools/aggregations.py:_ReducerStatements", "src/convtools/aggregations.py:ReduceFuncs", "src/convtools/aggregations.py:GROUPER_TEMPLATE", "src/convtools/aggregations.py:AGGREGATE_TEMPLATE"]}
{"id": "C54", "title": "The generated source of an aggregation is the loop it stands for", "statement": "The source text compiled for c.group_by(...).aggregate(...) and c.aggregate(...) is valid Python and is read as one function of the data and the input arguments: a loop over the rows in which every distinct reduce has its own variable, starts from its first row and continues on further ones, under its own filter and no other; for c.aggregate a first loop that is left when all reduces have started and a second one for the remaining rows; then the results, read from these variables.", "quantifier": "every list of reduces (built-in reducers and functions, with or without filter, initial value and additional arguments), every expression in them, every name, any number of keys, input arguments and duplicates", "why_tests_cant": "blocks are merged, reordered and renamed by replacing text in text; whether the result is still the intended program depends on all the reduces together", "anchors": ["src/convtools/aggregations.py:ReduceBlock", "src/convtools/aggregations.py:ReduceBlocks", "src/convtools/aggregations.py:GROUPER_TEMPLATE", "src/convtools/aggregations.py:AGGREGATE_TEMPLATE", "src/convtools/aggregations.py:GroupBy._gen_code_and_update_ctx"]}
{"id": "C55", "title": "Calling the generated function of an aggregation gives the rows the aggregation denotes", "statement": "The source text convtools generates for group_by(...).aggregate(...) and for aggregate(...), read and run as a Python function with the rows and the input arguments, gives exactly the output of the aggregation: for group_by one output (tuple, list, set, dict or call, nested) per group in the order of first occurrence, with the group keys and the reducers' results (with post-processing and default=) in their places; for aggregate one such output; after sort() the same rows stably sorted; and raises where it raises.", "quantifier": "every list of rows, all keys, reducers, conditions, defaults, arguments, number of reducers", "why_tests_cant": "the loops, their early exit, shared accumulators, aliasing (_d = acc) and the dict of group objects only show on particular data; tests sample programs and rows", "anchors": ["src/convtools/aggregations.py:GroupBy._gen_code_and_update_ctx", "src/convtools/aggregations.py:GROUPER_TEMPLATE", "src/convtools/aggregations.py:AGGREGATE_TEMPLATE", "src/convtools/aggregations.py:Reduce._gen_code_and_update_ctx", "src/convtools/aggregations.py:GroupBy._gen_agg_data_container"]}
{"id": "C56", "title": "A join gives its pairs one at a time, reading its driving side only as far as needed", "statement": "next() on the generator a join returns gives the pairs of the join in order and then StopIteration. Taking the first k pairs reads the left side (the right side for how='right') only up to the row the k-th pair is made of, so the left side may be infinite, fail later or hold rows on which the condition raises. If the join is not called again while a generator is in use, calls made earlier, finished or not, do not matter. An exception thrown into the generator comes out of it; after that, or after close(), it gives nothing more and, if it was started, no labelled value is left.", "quantifier": "every condition, how, lists of rows, number k of pairs taken, continuation of the left iterator, and every history of earlier calls of the same join", "why_tests_cant": "laziness shows only on partially consumed generators; tests turn joins into lists", "anchors": ["src/convtools/joins.py:join", "src/convtools/joins.py:_left_joiner", "src/convtools/joins.py:_add_right_part", "src/convtools/base.py:_ConverterCallable.__call__", "src/convtools/base.py:wrap_generator_clean_labels_on_exit"]}
{"id": "C57", "title": "The generated source of a join, run as Python, is the join", "statement": "The source text convtools compiles for c.join(...) is one valid Python function of the two collections and of the condition's input arguments. Called on any collections (lists or one-shot iterators) it raises what the join raises, returns an empty list when the join does, and otherwise returns an iterator whose next() gives, one by one, the pairs of the join in order, then the end, or the exception the join raises, for all four kinds of join.", "quantifier": "every condition made of c.LEFT, c.RIGHT, input arguments, constants, items, ==, and, or, the other operators and function calls, nested; every how; all collections and their objects; every number of next() calls; every memory and every label left over from earlier calls", "why_tests_cant": "the text is assembled from fragments by cutting the condition, nested generator expressions run interleaved with the two generator functions and the labels; which rows meet depends on when each generator is resumed", "anchors": ["src/convtools/joins.py:join", "src/convtools/joins.py:_left_joiner", "src/convtools/joins.py:_left_joiner_swapped", "src/convtools/joins.py:_add_right_part", "src/convtools/base.py:CachingConversion", "src/convtools/base.py:InlineExpr", "src/convtools/base.py:BaseConversion.gen_code_and_update_ctx"]}
{"id": "C58", "title": "An inline expression is its template with the arguments as units", "statement": "The code of c.inline_expr(template).pass_args(...) is read by Python as the expression of the template with the expressions of the arguments in its holes and as nothing else, whatever the arguments are: no operator of the template binds tighter than an argument's own operators, and inside an enclosing template the whole inline expression is again one unit. {}, {0} and {name} select the arguments, a hole may be repeated, doubled braces are single ones, and a missing argument raises. The library's own operators are such templates. Conditions: the holes are places for expressions and stand apart from names, numbers and strings, and an int constant is not the base of an attribute, item, call or power.", "quantifier": "every template (any text, any number of holes in any order, numbered, automatic or named), every argument (any conversion, or again an inline expression, to any depth)", "why_tests_cant": "the code is produced by pasting texts into text; whether the paste keeps its structure depends on the template and on every argument, and only shows for particular operator combinations", "anchors": ["src/convtools/base.py:InlineExpr", "src/convtools/base.py:InlineExpr.pass_args", "src/convtools/base.py:BaseConversion.not_", "src/convtools/base.py:BaseConversion.add"]}
{"id": "C59", "title": "c.filter keeps exactly the items whose condition is truthy", "statement": "c.filter(condition, cast) and conv.filter(condition, cast) return the items (of the input, or of what conv returns) for which the condition is truthy, unchanged and in order: as a list, tuple or set for these casts, as a generator without cast, and as what the callable returns for them for any other callable. Filtering what is already filtered keeps the items for which both conditions are truthy.", "quantifier": "every condition, cast, input collection, receiver conversion, and chains of filters", "why_tests_cant": "which items remain depends on the condition and on all of them; the method means different things on a comprehension and on other conversions, so chains behave differently from single filters", "anchors": ["src/convtools/base.py:Filter", "src/convtools/base.py:BaseConversion.filter", "src/convtools/base.py:BaseComprehensionConversion.filter"]}
{"id": "C60", "title": "Deriving a conversion leaves the one it is derived from as it was", "statement": "filter and sort of a comprehension, pass_args of an inline expression, aggregate and sort of a group_by, filter of a reduce and add_label return a conversion with the new setting and leave the conversion they are called on, and every other conversion, as it was: same definition, same input arguments asked for. So one conversion can be the basis of any number of others, in any order. The derived conversion asks for the input arguments of the original and of what was passed.", "quantifier": "every set of conversion objects sharing parts in any way, every conversion it is called on with any pipeline before it, every argument, any sequence of derivations", "why_tests_cant": "whether a method works on a copy, and how deep the copy is, shows only when the original or another derivative is used afterwards; the objects share parts and dictionaries in arbitrary ways", "anchors": ["src/convtools/base.py:BaseConversion.clone", "src/convtools/base.py:BaseComprehensionConversion.filter", "src/convtools/base.py:BaseComprehensionConversion.sort", "src/convtools/base.py:InlineExpr.pass_args", "src/convtools/base.py:CachingConversion.add_label", "src/convtools/aggregations.py:Reduce.filter", "src/convtools/aggregations.py:GroupBy.aggregate", "src/convtools/aggregations.py:GroupBy.sort"]}
{"id": "C61", "title": "A plain Python structure stands for itself with the conversions filled in", "statement": "Wherever a conversion is expected, a nested structure of dicts, lists, tuples, sets, constants and other objects with conversions anywhere inside may be given: the converter returns that structure with every conversion replaced by its value, dict entries and items in order, sets and dict keys deduplicated as Python does. A structure is refused exactly when a mutation object occurs in it.", "quantifier": "every structure of any depth and width, every conversion in it, every input", "why_tests_cant": "structures nest without bound and mix with conversions in every position; tests exercise a handful of shapes", "anchors": ["src/convtools/base.py:ensure_conversion", "src/convtools/base.py:Dict", "src/convtools/base.py:List", "src/convtools/base.py:Tuple", "src/convtools/base.py:Set", "src/convtools/base.py:NaiveConversion"]}
{"id": "C62", "title": "c.reduce uses what it is given and the reducer's own settings only for the rest", "statement": "c.reduce(reducer, expr, initial, default, additional_args, unconditional_init) reduces the values of expr (for the dict reducers: the pairs that expr stands for), passes the additional arguments given, starts from initial and falls back to default; a callable initial or default is called each time it is needed. What is not given comes from the reducer: expr for Count, the row for MaxRow and MinRow, the default 0 or None of the built-in reducers. It is refused exactly when a needed part is missing: expr, both initial and default for functions, the pair of a dict reducer; or when additional arguments are given to a dict reducer or a mutation occurs in a part.", "quantifier": "every reducer, every combination of given and omitted arguments, every structure and conversion as argument, every row", "why_tests_cant": "the settings of 23 reducers combine with six optional arguments of any shape; tests cover the documented combinations only", "anchors": ["src/convtools/aggregations.py:Reduce.__init__", "src/convtools/aggregations.py:_BaseReducer.configure_parent_reduce_obj", "src/convtools/aggregations.py:_DictReducerStatements.configure_parent_reduce_obj", "src/convtools/aggregations.py:Reduce._gen_code_and_update_ctx"]}
{"id": "C63", "title": "Python's operators on conversions compute the expression as written", "statement": "An expression written with + - * / % // == != < <= > >= [] unary - and & | ~ (for and, or, not), or with the methods of the same meaning (add, eq, is_, in_, ...), on conversions and constants evaluates to a conversion whose converter computes that expression on the values: operands from left to right, each once, the second operand of & and | only if needed, with the same exceptions. Python features that cannot be overloaded (and, or, not, in, is, chained comparisons) and constants on the left of arithmetic are refused or documented.", "quantifier": "every expression of any size over any conversions and constants, every input, whatever the objects' own operators do", "why_tests_cant": "operators combine without bound and the operand objects may do anything; tests check single operators on a few values", "anchors": ["src/convtools/base.py:BaseConversion", "src/convtools/base.py:Or", "src/convtools/base.py:And", "src/convtools/base.py:Eq", "src/convtools/base.py:InlineExpr.pass_args"]}
{"id": "C64", "title": "A converter takes exactly its input arguments", "statement": "The function gen_converter() returns is called with the input and one keyword argument for each input argument the conversion uses, and then computes the conversion on these values; a call that leaves one out, passes an unknown one, or passes no input or several, raises TypeError before anything has happened. execute(data, **kwargs) does the same.", "quantifier": "every conversion with any input arguments anywhere in it, every list of positional and keyword arguments, whatever the objects do", "why_tests_cant": "the parameters are collected from the whole conversion tree; tests call a few converters with the arguments they expect", "anchors": ["src/convtools/base.py:BaseConversion.gen_converter", "src/convtools/base.py:BaseConversion.get_args_def_code", "src/convtools/base.py:BaseConversion.execute", "src/convtools/base.py:InputArg"]}
