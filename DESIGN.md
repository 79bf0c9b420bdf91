# Formal model of convtools in Rocq (Coq 8.16.1)

convtools is a code generator: conversion objects are turned into Python
source text, the text is compiled and run.  The model therefore has three
kinds of parts:

* state machines of the run-time support classes (cache, option contexts,
  line cache, label store, name generator);
* a model of the *conversion objects* (heap of objects, cloning, piping);
* models of the *generated programs* (what the emitted text does when run):
  expressions, comprehensions, reducers, group_by/aggregate loops, joins, taps;
  and a model of the *text* itself (printer, lexer/parser of the emitted
  Python fragment), so that textual tests made by the generator
  (`input_is_simple`, `code in code`, `replace`) are the ones of the code.

Layout: `rocq/theories/Model_*.v` (definitions only, each with a file:line
citation), `Spec_*.v` (small independent specifications), `Proofs_*.v`
(lemmas), `Props_*.v` (the property theorems, each followed by a concrete
instance and `Print Assumptions`).

## Plan per property

| id | modelled | proof |
|----|----------|-------|
| C01-C03 | RUCache as a record (deque, mark set, dict, callback log) with exceptions | invariant over `fold_left` of operations; trace refinement; exact victim |
| C04-C06 | BaseCtx/BaseOptions per thread: `options`, `prev_options` slots | refinement to a stack of option maps; interleaving projection; depth >= 3 refuted |
| C07, C08 | gen_name with an arbitrary random stream; NaiveConversion's ctx update | invariant over request histories; C08 under "no hash collision", refuted with floats |
| C09 | repr of str/int and a lexer of Python literals | round trip for all strings/ints |
| C10 | printer of the generated text, tokenizer and precedence parser | parse (print e) = e for all trees |
| C11, C12, C48 | heap of conversion objects; clone, set_predefined_input, pipe, gen_converter loop | frame + chain lemmas by induction on the chain |
| C13 | dependency tuples, get_args, signature check | induction over trees |
| C14-C19, C22-C25 | deep embedding of generated expressions, code generation functions, evaluation parametric in arbitrary Python primitives | simulation by induction over conversions; generators (C24) from the source text, next() by next() |
| C20, C21 | label store + generators as a history machine | invariant over histories; overlap refuted |
| C26 | heap of Python objects, tap statements; what tap and the mutations are given (`Model_Tap.v`) | fold over the mutation list, frame; parts by C61 |
| C27-C36 | reducers as initial/step statements over Python values; block merging; group/aggregate loops; text hash | induction over rows; simulation of merged loop by independent loops |
| C37-C42 | condition AST, splitting, the four join programs with one-shot iterators and object ids | induction over conditions/rows; refutations |
| C43, C44, C46 | method binding, kwargs popping, attr text test | direct, for all inputs; refutations |
| C49, C50 | gen_converter and calls of converters as atomic steps of threads, arbitrary schedules | invariant over schedules; interference refuted with schedules |
| C51 | source text of the converter and of its helper functions; Python's reading of lines, statements and functions, and calls of the functions defined by them | simulation of the text by the expression model, induction over conversions; clash of names refuted |
| C52 | dependency tuples of reduces, group_by, join, pipe | induction over trees on a heap of objects: refused exactly when nested; foreign reduce refuted |
| C53 | memory of Python objects with references; the statements of the loop bodies as read from their text | a checker of statements (only objects made by the run are changed) proved sound by induction over statements and rows, then computed for every reducer; for lists of reducers the checker is applied block by block (`_d` changes its type from block to block) and combined with C54, which reads the generated text as those blocks; Sum of lists refuted |
| C54 | the whole text of the two templates, the blocks with their merging and renaming (`Model_AggSource.v`); a reader of Python functions with loops (`Spec_FuncText.v`); the intended program as a syntax tree (`Spec_AggProgram.v`) | every statement of every reducer is read for any expressions in its places; blocks and numbering of the text related to those of the loop model by induction over the reduces |
| C55 | a semantics of functions with loops over variables, attributes, shared objects and iterators (`Spec_FuncRun.v`); values of expressions on a row, on a group (`Spec_AggRun.v`); the text of an output made of keys, reduces and fixed expressions in tuples, lists, sets, dicts, calls, operators, items and conditions, and of sort() (`Model_AggFinish.v`); what is assumed of the module (`Spec_AggModule.v`); the text of the class of the groups (`Model_ClassText.v`), read by `Spec_ClassText.v` | simulation: every statement of every reducer on a state in which the accumulators are where the variables say (`Proofs_AggRun.v`), then blocks, then loops by induction over the rows (`Proofs_AggRunGroup.v`, `Proofs_AggRunTotal.v`); expressions cannot change what they do not mention (`Proofs_Steady.v`); composed with the reading of the text of C54 |
| C56 | the generators of a join as a state machine: nested generator expressions, the joiners, the right part, labels read at every left row (`Model_JoinLazy.v`), in the call histories of `Model_Labels.v` | induction over the left rows and over the pairs; equivalence with `Model_Join.join` in both directions; what is read is an invariant of next() |
| C57 | the text of the function of a join (`Model_JoinText.v`), the generator functions of joins.py as trees (`Model_JoinFuncs.v`); a semantics of functions, generator expressions and generator functions run next() by next(), with scopes shared between generators, labels and one-shot iterators (`Spec_GenRun.v`) | the text is read as a tree by induction over conditions and stage by stage; a simulation between the frames of the running generators and the state machine of C56, for sources that are themselves generators; induction over the rows each next() skips |
| C58 | str.format as a scanner with numbering states, InlineExpr and its arguments (`Model_Inline.v`); templates as pieces and tree substitution (`Spec_Inline.v`) | str.format by induction over the pieces; the tokens of the filled template are those of the template with each variable replaced by the tokens of its argument; an induction over the parser shows that it reads them as the substituted tree |
| C59 | Filter, the method `filter` of comprehensions, of aggregations and of all other conversions (`Model_Filter.v`), over the model of comprehensions | the comprehension theorems of C24 with the identity as item; the chain of two filters is computed on the model and refutes the property |
| C60 | conversion objects with the attributes of their class, dicts of labels as cells of their own, clone; filter, sort, pass_args, aggregate, Reduce.filter, add_label as operations on them (`Model_Derive.v`) | clone makes new cells only (C11); each assignment is to the clone, or to the original where the code does that |
| C61 | ensure_conversion on nested Python structures (`Model_Ensure.v`) over the model of collections; `means` (`Spec_Ensure.v`): the same structure with values | induction over the structure, the theorems of C22/C23 at each level; dicts are determined by their pairs |
| C62 | Reduce.__init__ and configure_parent_reduce_obj (`Model_ReduceArgs.v`); acceptable arguments (`Spec_ReduceArgs.v`), values by `means` of C61 | by cases over the reducers and what is given, induction over pipes and structures for the pair of a dict reducer |
| C63 | the methods and operators of BaseConversion and Python's dispatch to them (`Model_Operators.v`); an expression with its conversions replaced by values (`Spec_Operators.v`) | induction over the expression for any objects and effects, then C14; refutations for what Python does not let a class overload |
| C64 | Python's call of the compiled function with the parameters of C13, and execute (`Model_Execute.v`); which arguments a call passes (`Spec_Execute.v`) | the binding of arguments succeeds exactly for the arguments used (C13's dependency collection), then C14 |
| C45, C47 | add_sources / populate_line_cache on top of the RUCache model | invariant over histories |

Where the code violates a property as stated, the theorem is called
`..._refuted` (with a concrete witness), the strongest true restriction is
proved as `..._partial`, and the finding is listed below.

## Trusted base

* Coq 8.16.1's kernel (and its VM: `vm_compute` is used for concrete instances
  and refutation witnesses; `native_compute` is not used).
* No axioms.  `Print Assumptions` stands beneath every property theorem and
  prints "Closed under the global context" for each of them.  (Loading the
  standard library's ssreflect files brings seven `Coq.ssr.ssrunder.Under_rel.*`
  declarations into scope; no theorem depends on them.)
* No kernel check is switched off; no functors, module types, plugins.
* The models below are faithful to the cited lines.  They were written by
  reading `/repo`; nothing was run.
* The Python semantics they state: `Model_PyVal.v` (built-in values),
  `Model_Python.v` and `Model_Obj.v` (two instances of the primitives), the
  tokenizer and parser of `Spec_Syntax.v`, the statement reader of
  `Spec_Stmt.v`.  The results about conversions (C14-C19, C22-C26) are
  parametric in the primitives (`prims` of `Model_Eval.v`): they hold for every
  behaviour of user functions, objects and operators, and use the instances
  only for examples and refutations.

## What is modelled

| code | model |
|------|-------|
| utils.py:10-57 RUCache | Model_RUCache.v (deque, marks, callback and its exceptions) |
| utils.py:69-128 option contexts | Model_Options.v (per thread and class; nesting; defaults) |
| base.py:24-123 converter callable, line cache, labels, methods | Model_LineCache.v, Model_Labels.v, Model_Method.v |
| base.py:181-223, 278-300, 404-446, 521-548 ensure_conversion, dependencies, signatures | Model_Args.v |
| aggregations.py:791-874, 947-951, 969-1040, joins.py:139-167, 365-383 what reduces, group_by and join register | Model_AggDeps.v |
| base.py:255-263, 341-362, 735-750, 787-856 objects, clone, pipe | Model_Heap.v |
| base.py:302-324, 894-1418, 1418-1918 code generation of all expression conversions | Model_Code.v (trees and text), Model_Api.v (how the public methods build them) |
| base.py:329-388 names, 939-954 embedding of objects | Model_Names.v |
| base.py:474-592 gen_converter | Model_Heap.v (stages), Model_Converter.v (body), Model_Args.v (signature), Model_Compile.v (several threads) |
| base.py:70-87, 503-513 calls in several threads | Model_Threads.v |
| mutations.py | Model_Code.v (`CTap`, `mkind`), Model_Obj.v |
| aggregations.py:23-483, 788-951 reducers | Model_Reducers.v (values), Model_AggText.v (text) |
| aggregations.py:552-785, 954-1277 group_by / aggregate | Model_Aggregate.v (loops), Model_AggText.v (hash of blocks), Model_AggResult.v (search for keys in the output) |
| base.py:164-178, 448-468, 521-592, 1308-1339, 1648-1677, 1893-1918, mutations.py:27-68 source text of converters and helper functions | Model_Source.v |
| aggregations.py:552-785, 1143-1277 (the source text of the functions) | Model_AggSource.v |
| aggregations.py:1126-1141 the class of the groups | Model_ClassText.v |
| base.py:278-300, 957-1011, 1437-1453, 1486-1517, 1597-1599, aggregations.py:865-874, 947-951, 987-1019, 1029-1035 methods that derive a conversion | Model_Derive.v |
| base.py:181-223 plain Python values given as conversions | Model_Ensure.v |
| base.py:731-733, 1392-1416, 1486-1500, aggregations.py:1021-1027 filter | Model_Filter.v |
| base.py:1418-1466 inline expressions | Model_Inline.v |
| aggregations.py:71-92, 273-282, 791-863, 929-938 arguments of c.reduce | Model_ReduceArgs.v |
| base.py:601-602, 623-730 methods and operators of BaseConversion; Python's operator dispatch, truth, in and is on conversions; plain operands: None, bool, int, str (not: operators on plain values alone, str % conversion) | Model_Operators.v |
| joins.py | Model_Join.v (list of a join), Model_JoinLazy.v (pair by pair, with labels), Model_JoinText.v (source text), Model_JoinFuncs.v (_left_joiner, _add_right_part) |

The text of generated code is modelled character by character for expressions
(`print`), reducer statements and blocks (`block_lines`, `no_init_lines`) and
the output of group_by (`result_code`).  The step from text to meaning is proved
for expressions (`Spec_Syntax.parse`, C10), for reducer blocks
(`Spec_Stmt.run_lines`, C28) and for whole converters with their helper functions
(`Spec_Source.v`: lines, indentation, `def`, `try/except`, `if`, `yield`, calls by
name in one table of functions; C51).  The functions of group_by and aggregate are
modelled as text, read as programs (`Model_AggSource.v`, C54) and run (C55); so is the function
of a join (`Model_JoinText.v`, C57; `Spec_GenRun.v` is trusted to be Python's meaning of
generators and closures).  In C57 `_left_joiner`, `_left_joiner_swapped` and `_add_right_part`
are trees written by hand, and the function of the index is its fold over the rows.

## What is not modelled

* C51: group_by, aggregate and join as parts of a converter; generators that are
  not consumed at once, except when the converter returns one (C24: a generator
  comprehension as the last stage, `Spec_Generator.v`, run next() by next()); truth tests
  with effects; custom mutation code of several lines; that `data_.pop(i)` looks up
  `pop` before it evaluates `i`.  Whether an index equals the default is decided on
  the conversions, the code compares texts.
* C58: an inline expression below other conversions or with a predefined input; format
  specifications, `!r`, attributes and items in the holes of a template; EscapedString.
* C61: slices inside structures (their text is in C58); instances of subclasses of dict, list,
  tuple and set (a namedtuple is rebuilt as a plain tuple).
* `debug` output and formatting with black.
* CPython limits: nesting depth of the parser, digits of `int` literals,
  recursion; NFKC normalisation of identifiers; hash randomisation.
* Floats, bytes and other types embedded by name: opaque objects.
* Aliasing of mutable results in the value models (the list an Array reducer returns
  is a value, `+=` of lists makes a new list).  `Spec_PyHeap.v` (C53) runs the same
  statements on objects with references; there comparisons, hashing, addition and user
  expressions are arbitrary functions that may raise and make objects but change none.
* Infinite iterators, and user functions that call back into the converter that is
  running.
* Labels of nested functions are keyed by name only (as in the code, a label is a
  key of one dict per converter).
* Threads other than in the option contexts (C06), C49 and C50.

## Findings

Behaviour of the code that contradicts a property as a user would state it.
Each has a theorem `..._refuted` with a witness.

* C01: a cache of capacity 0, or a raising eviction callback, leaves untracked entries.
* C04: with three nested option blocks the outermost options are lost.
* C08: two embedded objects with equal name prefix and hash (floats -1.0, -2.0; two
  closures of one `def`) are confused.
* C10: `c.naive(1).attr(...)`/`item`/`call` print `1.x`; labels containing quotes
  break the code.
* C12: the pipe length limit limits one operand, not the result.
* C13: an input argument in a sort key is not a parameter of the converter; an
  explicit signature is accepted if a name occurs as a default value; an argument
  called `data_` gives a function that does not compile; the same for sort keys of
  group_by; a label in a join condition hides an input argument of the same name.
* C15: an exception of an earlier stage can be lost inside nested pipes.
* C17: `c.item(c.input_arg("k"), default=...)` raises NameError.
* C18: a nested conditional evaluates its input twice, or raises KeyError, depending
  on how often the condition uses it.
* C19: a label conversion that ends in `c.this()` is taken for a plain label.
* C20, C21: labels are per converter: generators that overlap or are dropped
  unstarted see each other's labels.
* C22: the value of an optional item is computed twice; with both skip_if and keep_if,
  skip_if is silently dropped (`C22_skip_if_with_keep_if_refuted`).
* C23: `c.set()` makes a dict, `c.tuple()` does not compile.
* C27: group_by with only keys in the output does not compile.
* C33: in `c.aggregate` a reducer can miss one row if another one gets its first
  value late.
* C34: in `c.aggregate`, `Sum(item(1))` and `Sum(item(2))` share one result;
  inline reducers that differ by the accumulator do too.
* C35: `initial=` does not work with built-in reducers; without rows the internal
  sentinel object is returned.
* C36: constants containing `row_`, constant keys, attributes with a common prefix and
  pipes into collections are corrupted by the search for keys.
* C37-C42: piped conditions, right-only filters without key, iterators on the right,
  conditions without rows in left/outer joins, keys of right joins, None rows in
  outer joins, unhashable keys.
* C43: an instance with a false truth value is replaced by its class.
* C44: keyword arguments called debug, func, self, method_name or starting with
  `_predefined` are swallowed or rejected.
* C46: attributes named like a keyword do not compile.
* C47: two converters with the same random file name show each other's source.
* C48: a failed compilation loses the input of the failing stage.
* C49: gen_converter detaches each stage from its input while it runs: two threads
  compiling the same pipe get wrong converters, and the pipe may lose a stage for good.
* C50: two calls of a converter with labels in two threads can return each other's
  values, or raise KeyError, also from the clean-up.
* C51: the names of helper functions come from the id of the conversion; if_ makes
  clones that are freed while the code is generated, so that two helpers can get one
  name: all calls then go to the last one.
* C52: if the output of an aggregation contains another aggregation (a reduce piped into
  `c.aggregate`), the inner reduces are also computed over the rows of the outer one.
* C53: Sum and DictSumOrNone use `+=` on the value of the first row itself: summing
  lists extends the first list of the input data in place.
* C54: variables are renamed by replacing text, also inside string constants: after two
  identical reduces, a constant `'agg_data_.v2'` in the third one becomes `'agg_data_.v1'`.
* C55: `c.group_by(c.item("k")).aggregate(c.item("k"))`, the distinct keys, cannot be
  compiled: without reduces `_gen_agg_data_container` makes a class whose `__init__` has no
  body (`C55_no_reduce_refuted`); `c.aggregate` without reduces generates the line ` = _none`.
* C55: `c.input_arg("checksum_")` (or any other variable of the generated function: `row_`,
  `_none`, `it_`, `result_`, `agg_data_`...) inside an aggregation is overwritten by the
  function: `c.aggregate((Array(c.input_arg("checksum_")),))` called with `checksum_=100` on
  two rows gives `([0, 1],)` (`C55_argument_overwritten_refuted`).
* C56: two generators of one join conversion that are used at the same time share the
  labels of the join: the left rows of the first are joined to the right rows of the
  second, and when one ends the other raises KeyError
  (`C56_overlapping_joins_refuted`).
* C58: arguments are not parenthesised: `c.inline_expr("{} ** 2").pass_args(-1)` is
  `-(1 ** 2)`.
* C59: `c.filter(a).filter(b)` and `c.list_comp(...).filter(a).filter(b)` drop the condition
  `a`: the method of comprehensions replaces the condition; `c.filter(a).filter(b, cast=list)`
  raises TypeError (`C59_second_filter_replaces`, `C59_filter_twice_refuted`).
* C60: not all methods that return a conversion work on a copy.  `c.reduce(...).filter(cond)`
  sets the condition of the reduce itself: `r.filter(a)` and `r.filter(b)` are one object with
  condition `b` (`C60_reduce_filter_is_reusable_refuted`), and a filter refused as nested
  aggregation leaves a reduce that refuses every later filter.  `g.aggregate(...)` registers the
  reducer with `g` too, so a second aggregate from `g` has a converter that demands the input
  arguments of the first one (`C60_aggregate_is_reusable_refuted`).  `add_label` on a conversion
  that is labelled already changes it, and its clones, which share the dict of labels, so the
  original evaluates a label whose input arguments it does not ask for
  (`C60_label_on_clone_refuted`).
* C61: the empty tuple and the empty set break also as plain objects, e.g. as a default:
  `c.item(1, default=())` does not compile, `default=set()` gives a dict (`C61_empty_refuted`).
* C62: something piped into the pair of a dict reducer is lost:
  `c.reduce(c.ReduceFuncs.Dict, c.item("x").pipe((c.item("k"), c.item("v"))))` takes key and
  value from the row (`C62_piped_pair_refuted`).  A default that uses its input is generated
  for an empty input: `default=c.item(1)` is the list `[1]` (`C62_default_input_refuted`).
  Defaults that do not look at their input are read as written (`C62_default_without_input`).
  `default=c.naive(list)` is called, `initial=c.naive(list)` is not.
* C63: `0 < c.this() < 10` silently is `c.this() < 10` (`C63_chain_refuted`, in general
  `C63_chain`); `a and b` is `b`, `a or b` is `a`, `not a` is False (`C63_keywords`);
  `x in conversion` is True for every x, because of `__getitem__`, and `conversion is None`
  is False (`C63_in_is`); `1 + c.this()` raises TypeError, there are no reflected methods
  (`C63_constant_on_the_left_refused`).
* C64: `execute` takes `debug` for itself, so a conversion with an input argument of this name
  cannot be executed (`C64_execute_debug`, `C64_execute_debug_refuted`).  Input arguments called
  self or cls are no parameters of a converter that is not a method (`C64_self_refuted`).
