{"id": "C01", "title": "Links behave like lists", "statement": "A link built by any sequence of `link{..}`, `+=`, `-=`, `+`, `tail` and `neck` contains exactly the sequence of elements the same operations would give on a plain list: `is_empty` is true iff the list is empty, `head`/`tip` give the first/last element (none for the empty link), `tail`/`neck` drop it, and no operation panics.", "quantifier": "every sequence of link operations of every length, and every element (any bool, any f64 bit pattern, any string)", "why_tests_cant": "The representation splits the sequence in 124-element blocks shared between links with start/end offsets and 2-bit tags; boundary behaviour depends on arbitrary histories of slicing and appending.", "anchors": ["src/link.rs: Link::{new,head,tip,tail,neck,is_empty,add,push}", "src/link.rs: Block::{var,push}"]}
{"id": "C02", "title": "Link values are persistent", "statement": "Operating on one link value (including `+=` on a variable) never changes the elements observed through any other live link value, even when the two share storage.", "quantifier": "every history of clone/push/tail/neck/add/drop over any number of live links sharing blocks", "why_tests_cant": "Sharing patterns are unbounded; the copy-on-write decision depends on exact reference counts at every step.", "anchors": ["src/link.rs: Link::push", "src/link.rs: impl Clone for Block"]}
{"id": "C03", "title": "Link storage is memory safe", "statement": "Through any history of creating, cloning, slicing, appending, and dropping links, a string stored in a live link is never freed early, freed twice or re-interpreted as another type, and a block slot inside a link's range always holds an initialised element.", "quantifier": "every history of link operations and drops", "why_tests_cant": "The unsafe code manages Arc counts by hand inside a word array; use-after-free needs particular sharing/overwrite histories.", "anchors": ["src/link.rs: impl Drop for Block", "src/link.rs: impl Clone for Block", "src/link.rs: Block::{var,push}"]}
{"id": "C04", "title": "Link elements read back unchanged", "statement": "A bool, number (bit pattern) or string appended to a link is read back as the same value without its secret, and appending it does not disturb any other element of the same block.", "quantifier": "every element value, every slot position, every block content", "why_tests_cant": "Tags are packed 32 per machine word; correctness is a statement about all slots and all prior contents.", "anchors": ["src/link.rs: Block::{var,push}"]}
{"id": "C05", "title": "Deep cloning removes references and keeps the value", "statement": "The value passed to a thread, sent over a channel or returned by `clone` contains no reference into the caller's stack, and is structurally equal to the original with every reference replaced by what it refers to.", "quantifier": "every value nesting and every stack", "why_tests_cant": "Values nest without bound and references may occur at any depth.", "anchors": ["src/lib.rs: Variable::deep_clone", "src/runtime/mod.rs: Runtime::go", "src/dyon_std/mod.rs: clone"]}
{"id": "C06", "title": "Equality is an equivalence on NaN-free data", "statement": "`==` on data values is symmetric and transitive, is reflexive exactly when no NaN occurs, ignores secrets, and `!=` is its negation; values of different types are an error rather than `false` where documented.", "quantifier": "all pairs/triples of values", "why_tests_cant": "Recursive over unbounded nested values.", "anchors": ["src/lib.rs: impl PartialEq for Variable", "src/dyon_std/mod.rs: equal, not_equal"]}
{"id": "C07", "title": "Ordering operators agree with each other", "statement": "`a > b` is `b < a`, `a >= b` is `b <= a`, `<=` is `<` or `==`, for numbers and strings; comparisons involving NaN are false.", "quantifier": "all pairs of numbers and strings", "why_tests_cant": "Over 2^128 pairs including NaN, infinities, signed zero.", "anchors": ["src/dyon_std/mod.rs: less, less_or_equal, greater, greater_or_equal"]}
{"id": "C08", "title": "Indexed access reads and writes exactly the named element", "statement": "Reading `a.x.y[i]` returns the value stored at that path; assigning through the path changes that value only, leaves every other path and every other variable unchanged, and a missing key or out-of-range index is an error.", "quantifier": "every nested value, every path length, every stack with references", "why_tests_cant": "Unbounded nesting; aliasing through references between stack slots.", "anchors": ["src/runtime/mod.rs: item_lookup", "src/runtime/mod.rs: Runtime::item", "src/runtime/mod.rs: Runtime::assign"]}
{"id": "C09", "title": "Array intrinsics match list operations", "statement": "`push`, `pop`, `insert`, `remove`, `reverse`, `clear`, `swap`, `len` on an array variable act as the corresponding list operations on that variable, leave all other variables unchanged, and an out-of-bounds position gives an error without changing anything.", "quantifier": "all arrays, indices (any f64) and stacks", "why_tests_cant": "Indices are arbitrary f64 including NaN, negatives, huge values; arrays of any length.", "anchors": ["src/dyon_std/mod.rs: push, pop, insert, remove, reverse, clear, swap, len"]}
{"id": "C10", "title": "Counting loops visit exactly the expected numbers", "statement": "`for i [a,b)` runs its body with i = a, a+1, ... while i < b, in that order, each exactly once; for integers |a|,|b| <= 2^53 it terminates after exactly max(0,b-a) iterations.", "quantifier": "all start/end numbers and all bodies", "why_tests_cant": "Loop lengths are unbounded and the counter is an f64 whose increment rounds.", "anchors": ["src/runtime/for_n.rs: Runtime::for_n_expr, start!, end!, cond!, inc!"]}
{"id": "C11", "title": "Sum and product loops equal the fold of the body", "statement": "`sum i n {..}`/`prod i n {..}` (also the vec4 forms) return the left fold of + (resp. *) over the body's values in iteration order, `continue` contributes nothing, `break` stops, and the interpreter's variables are as before the loop.", "quantifier": "all bounds and bodies", "why_tests_cant": "Unbounded iteration counts and arbitrary body behaviour.", "anchors": ["src/runtime/for_n.rs: sum_n_expr, prod_n_expr, sum_vec4_n_expr, prod_vec4_n_expr"]}
{"id": "C12", "title": "Min and max loops return the extremum and where it occurs", "statement": "`min i n {..}`/`max i n {..}` return the least/greatest body value ignoring NaN, and the attached `where` secret is the index of the first iteration attaining it; NaN is returned only when every body value is NaN or the loop is empty.", "quantifier": "all sequences of body values (with any NaN pattern)", "why_tests_cant": "Arbitrary sequence length and NaN placement.", "anchors": ["src/runtime/for_n.rs: min_n_expr, max_n_expr"]}
{"id": "C13", "title": "Any/all loops quantify over the body and explain why", "statement": "`any i n {..}` is true iff some body value is true and its `why` secret is the first witness followed by the body's own secret; dually for `all` and the first counterexample.", "quantifier": "all sequences of body values and nestings", "why_tests_cant": "Arbitrary length and nesting depth of secrets.", "anchors": ["src/runtime/for_n.rs: any_n_expr, all_n_expr"]}
{"id": "C14", "title": "Sift and link loops collect the body values in order", "statement": "`sift i n {..}` returns the array (and `link i n {..}` the link) of the body values in iteration order, skipping iterations ended by `continue`.", "quantifier": "all bounds and bodies", "why_tests_cant": "Unbounded iteration counts.", "anchors": ["src/runtime/for_n.rs: sift_n_expr, link_for_n_expr"]}
{"id": "C15", "title": "Labelled break and continue reach the loop they name", "statement": "`break 'x`/`continue 'x` act on the innermost enclosing loop labelled x, unlabelled ones on the innermost loop, intermediate loops are abandoned; a label that names no enclosing loop of the function is an error at the function call.", "quantifier": "all nestings of loops, labels and bodies", "why_tests_cant": "Unbounded nesting depth.", "anchors": ["src/runtime/mod.rs: for_expr", "src/runtime/for_n.rs: break_!, continue_!", "src/runtime/mod.rs: call_loaded"]}
{"id": "C16", "title": "Evaluating an expression leaves the interpreter stacks balanced", "statement": "After any expression, block or call completes normally, the runtime's value, local, current-object and call stacks have the length they had before, except that a declaration adds exactly one variable for the rest of its block.", "quantifier": "all programs and states", "why_tests_cant": "Unbounded program size and depth; exits through return, break, continue and `?`.", "anchors": ["src/runtime/mod.rs: Runtime::{expression,block,call_loaded,call_closure,assign,item,vec4,mat4,for_expr}"]}
{"id": "C17", "title": "A variable name denotes its innermost declaration in scope", "statement": "Every variable occurrence in a loaded program reads and writes the stack slot of the innermost declaration of that name in scope, i.e. compile-time slot numbers always agree with run-time lookup by name (building with `debug_lookup` changes nothing).", "quantifier": "all well-scoped programs and all executions", "why_tests_cant": "Slot offsets depend on everything pushed between declaration and use on every path; tests sample a few program shapes.", "anchors": ["src/ast/mod.rs: get_locals of every node", "src/runtime/mod.rs: Runtime::item (static_stack_id / debug_lookup)"]}
{"id": "C18", "title": "`?` unwraps or returns the error", "statement": "`x?` evaluates to the payload of ok/some, and otherwise makes the enclosing function return `err(..)` whose message is unchanged and whose trace has exactly one entry more; it never continues execution with an error value.", "quantifier": "all values and calling contexts", "why_tests_cant": "Arbitrary nesting of calls; every value type.", "anchors": ["src/runtime/mod.rs: try_msg, try_fun, item"]}
{"id": "C19", "title": "`try` isolates failures", "statement": "`try expr` turns any run-time error of expr into `err(..)` and afterwards the call, variable and current-object stacks are exactly as long as before; a success v becomes `ok(v)`.", "quantifier": "all expressions and failure points", "why_tests_cant": "Failures can occur at any depth in any partially evaluated construct.", "anchors": ["src/runtime/mod.rs: try_expr"]}
{"id": "C20", "title": "Lazy operators short-circuit", "statement": "`a && b`, `a || b`, `unwrap_or(a,b)` and every call of a function declared with a lazy invariant do not evaluate the remaining arguments when the earlier argument matches the invariant, and then return the specified value.", "quantifier": "all argument expressions and states", "why_tests_cant": "The unevaluated argument may be any program, including diverging ones.", "anchors": ["src/runtime/mod.rs: call_lazy, call_loaded", "src/lib.rs: LAZY_AND, LAZY_OR, LAZY_UNWRAP_OR", "src/ast/mod.rs: Call::get_locals"]}
{"id": "C21", "title": "if/else-if chooses the first true branch", "statement": "An if-expression evaluates conditions left to right up to the first true one, runs exactly that block (or the else block, or nothing), and returns its value; no other block or later condition is evaluated.", "quantifier": "all chains of any length", "why_tests_cant": "Unbounded number of branches and effects.", "anchors": ["src/runtime/mod.rs: if_expr"]}
{"id": "C22", "title": "Function calls return exactly one value when declared to", "statement": "A call of a function declared with `->` that completes normally yields exactly one value (from `return x`, the final expression, or `return = x`) and a function without `->` yields none; all locals and arguments of the callee are gone afterwards.", "quantifier": "all functions, arguments, and exits", "why_tests_cant": "All combinations of exits inside nested blocks and loops.", "anchors": ["src/runtime/mod.rs: call_loaded, call_closure, pop_fn"]}
{"id": "C23", "title": "Current objects resolve to the latest live declaration", "statement": "A `~ x` use refers to the most recently declared, still live current object named x of any caller; declarations end with their block or loop; if none exists the call fails.", "quantifier": "all call histories", "why_tests_cant": "Dynamic scoping over unbounded call depth.", "anchors": ["src/runtime/mod.rs: call_loaded, assign, block, for_expr", "src/runtime/mod.rs: Runtime::current_object"]}
{"id": "C24", "title": "Assignment copies rather than aliases", "statement": "`x := y` and `x = y` make x independent: later changes to x do not change y and vice versa, for all value types.", "quantifier": "all values and later mutation sequences", "why_tests_cant": "Histories of mutations on shared reference-counted data.", "anchors": ["src/runtime/mod.rs: assign"]}
{"id": "C25", "title": "Closures capture the grabbed value at creation", "statement": "A `grab` expression in a closure is evaluated exactly once, when the closure is created, and every later call uses that value regardless of subsequent changes to the variable; grabs of outer levels are left for the enclosing closure.", "quantifier": "all closures, nesting levels and later histories", "why_tests_cant": "Unbounded nesting of closures and later mutations.", "anchors": ["src/grab.rs: grab_expr and helpers", "src/runtime/mod.rs: closure, call_closure"]}
{"id": "C26", "title": "Type compatibility is reflexive and respects any", "statement": "Every type is compatible with itself and with `any` in both directions as documented; array/option/result/thread/in/secret types are compatible exactly when their contents are; compatibility never accepts void for a value or a value for void.", "quantifier": "all pairs of types of any nesting", "why_tests_cant": "Types nest without bound.", "anchors": ["src/ty.rs: Type::goes_with"]}
{"id": "C27", "title": "Ad-hoc types only mix with themselves, their underlying type, or any", "statement": "Two different ad-hoc type names are never compatible, an ad-hoc type is compatible with its own underlying type, and `+=` on ad-hoc types requires the same name.", "quantifier": "all ad-hoc types over all underlying types", "why_tests_cant": "Unbounded nesting of types.", "anchors": ["src/ty.rs: Type::goes_with, Type::add_assign"]}
{"id": "C28", "title": "Type refinement picks the first matching signature", "statement": "A call's refined return type is that of the first extra signature whose parameters accept all argument types, with type variables instantiated consistently; no signature matching is an error; ambiguous arguments postpone the decision.", "quantifier": "all signature lists and argument type lists", "why_tests_cant": "Unbounded numbers of signatures, arguments and type variables.", "anchors": ["src/lifetime/typecheck/refine.rs: declaration, prelude", "src/ty.rs: bind_ty_vars, insert_var, insert_none_var, ambiguous"]}
{"id": "C29", "title": "Lifetimes are ordered consistently", "statement": "The lifetime comparison used by the checker is a strict partial order: never both a outlives b and b outlives a, and outliving is transitive; a later local never outlives an earlier one.", "quantifier": "all lifetimes", "why_tests_cant": "Infinite domain of argument paths and locals.", "anchors": ["src/lifetime/lt.rs: PartialOrd for Lifetime, compare_argument_outlives"]}
{"id": "C30", "title": "Lifetime checking terminates on every accepted signature", "statement": "For each function whose argument lifetimes pass the cyclicity check, computing an argument's lifetime terminates; cyclic lifetime declarations are always rejected.", "quantifier": "all argument lists with arbitrary lifetime annotations", "why_tests_cant": "Arbitrary graphs of lifetime annotations.", "anchors": ["src/lifetime/mod.rs: check_core (cyclic references)", "src/lifetime/lt.rs: arg_lifetime"]}
{"id": "C31", "title": "A composite value outlives no longer than its shortest-lived part", "statement": "The lifetime the checker gives to an array/object/call expression is not longer than that of any reference stored in it, so no accepted assignment can store a reference in a longer-lived variable.", "quantifier": "all expression trees", "why_tests_cant": "Arbitrary nesting of expressions and scopes.", "anchors": ["src/lifetime/node.rs: Node::lifetime", "src/lifetime/lt.rs: compare_lifetimes"]}
{"id": "C32", "title": "The run-time lifetime check accepts exactly outliving arguments", "statement": "Calling a loaded function dynamically succeeds the lifetime check iff every argument with a declared lifetime is a reference that lives longer than every reference reachable from the argument it must outlive.", "quantifier": "all argument vectors and stacks", "why_tests_cant": "Nested references in arrays/objects of unbounded depth.", "anchors": ["src/dyon_std/lifetimechk.rs: check, min_ref"]}
{"id": "C33", "title": "The latest definition of a function wins, everywhere", "statement": "A call by plain name resolves to the last loaded function of that name, else the last registered external one; type checker and run time agree on which function is meant, also through `use` imports and aliases.", "quantifier": "all modules, definition orders, `use` lists", "why_tests_cant": "Arbitrary sequences of definitions and imports.", "anchors": ["src/module.rs: find_function", "src/ast/mod.rs: UseLookup::{from_uses_module,from_uses_prelude}", "src/prelude.rs: Prelude::{insert,from_module}"]}
{"id": "C34", "title": "Calls between loaded functions hit the intended function", "statement": "The relative function index stored in a call resolves at run time to the function found when the call was compiled, from any caller, and keeps doing so when more functions are added to the module.", "quantifier": "all modules and extensions of them", "why_tests_cant": "Unbounded module growth.", "anchors": ["src/module.rs: find_function", "src/runtime/mod.rs: call_loaded", "src/ast/mod.rs: Call::get_locals"]}
{"id": "C35", "title": "In-channels receive every call exactly once", "statement": "Between `in f` and the channel being closed, each call of f by any thread delivers its argument array exactly once to that channel, in call order per thread; closed channels are dropped and do not disturb the others.", "quantifier": "all interleavings of calls, channel creations, and closings", "why_tests_cant": "Schedules are unbounded.", "anchors": ["src/runtime/mod.rs: in_expr, call_loaded (senders)"]}
{"id": "C36", "title": "No in-channel is forgotten", "statement": "Whenever an open in-channel of a function is registered, the function's fast-path flag is set, under every interleaving of channel creations and calls.", "quantifier": "all schedules of any number of threads", "why_tests_cant": "Race conditions depend on schedules.", "anchors": ["src/runtime/mod.rs: in_expr, call_loaded (senders flag)"]}
{"id": "C37", "title": "Threads are joined at most once and never share data", "statement": "`join` on a thread handle returns its result exactly once; a second join or a join on a shared handle gives an error and not a hang; the thread's arguments and result share no references with the spawner.", "quantifier": "all sequences of clone/join on handles", "why_tests_cant": "Histories of handle copies.", "anchors": ["src/lib.rs: Thread::invalidate_handle", "src/dyon_std/mod.rs: join__thread", "src/runtime/mod.rs: go"]}
{"id": "C38", "title": "Data written as text loads back equal", "statement": "For every data value made of finite numbers, booleans, strings, vec4, arrays, objects, links, options: `load_data` of its printed form gives an equal value.", "quantifier": "all data values of any depth, strings with any characters", "why_tests_cant": "Unbounded nesting and arbitrary string contents.", "anchors": ["src/write.rs: write_variable", "src/dyon_std/data.rs: expr, object, array, link, vec4"]}
{"id": "C39", "title": "Printed closures parse back to the same expression", "statement": "The text printed for a closure body, parsed with the language grammar, denotes the same operator tree.", "quantifier": "all operator expressions", "why_tests_cant": "Unbounded expression trees.", "anchors": ["src/write.rs: binop_needs_parens, write_binop, write_not, write_neg", "src/ast/mod.rs: BinOpSeq::into_expression, BinOp::precedence"]}
{"id": "C40", "title": "Operator sequences group by precedence and to the left", "statement": "A flat sequence of operators of the same level is evaluated left to right and higher-precedence levels bind tighter.", "quantifier": "all operator sequences", "why_tests_cant": "Unbounded length.", "anchors": ["src/ast/mod.rs: BinOpSeq::into_expression, BinOp::precedence"]}
{"id": "C41", "title": "Unrolled vec4 loops equal the loop with the index substituted", "statement": "`vec4 i {expr}` gives the vector whose k-th component is expr evaluated with i = k, respecting shadowing of i inside expr.", "quantifier": "all body expressions", "why_tests_cant": "All program shapes and binding structures.", "anchors": ["src/ast/replace.rs: number and helpers", "src/ast/mod.rs: Vec4UnLoop::into_expression"]}
{"id": "C42", "title": "Inferred loop ranges come from a list indexed by the loop variable", "statement": "When the range of a loop is omitted, the end is the length of a list expression that is indexed by the loop variable in the body and contains no variable declared in the body.", "quantifier": "all bodies", "why_tests_cant": "All program shapes.", "anchors": ["src/ast/infer_len.rs: infer and helpers", "src/ast/mod.rs: ForN::create"]}
{"id": "C43", "title": "Constant folding preserves meaning", "statement": "An array/object/vec4 literal folded to a constant at load time has the value evaluation would give, including errors.", "quantifier": "all literals of any nesting", "why_tests_cant": "Unbounded nesting.", "anchors": ["src/ast/mod.rs: Expression::precompute, Object::precompute, Array::precompute, Vec4::precompute", "src/runtime/mod.rs: object, array, vec4"]}
{"id": "C44", "title": "Values pass unchanged between Rust and Dyon", "statement": "Pushing a Rust bool, string, f32, f64, u32, usize, option, result, tuple, array or vector and popping it at the same type gives the same value; popping at a different shape is an error, not a panic.", "quantifier": "all values of the supported types", "why_tests_cant": "Infinite domains.", "anchors": ["src/embed.rs: PopVariable, PushVariable"]}
{"id": "C45", "title": "Hex colours round-trip", "statement": "Every colour literal/`str__color` conversion maps each 8-bit channel exactly: parsing the printed colour gives the same 8-bit channels.", "quantifier": "all 2^32 colours", "why_tests_cant": "The float power conversions are checked for all channel values.", "anchors": ["src/dyon_std/mod.rs: str__color, srgb_to_linear__color, linear_to_srgb__color", "src/ast/mod.rs: Expression::from_meta_data (color)"]}
{"id": "C46", "title": "Secrets survive arithmetic and are consumed in order", "statement": "Binary operators propagate the left operand's secret as documented; `why`/`where` return the secret path in outermost-to-innermost loop order and fail when there is none.", "quantifier": "all values with secrets", "why_tests_cant": "Unbounded secret lengths.", "anchors": ["src/dyon_std/mod.rs: add, sub, mul, less, why, _where, explain_why, explain_where"]}
{"id": "C47", "title": "Reported errors do not corrupt the embedding API", "statement": "After a call through `Call`/`call_str`/`run` returns an error, the runtime can be used again and behaves as if the failed call had not been made.", "quantifier": "all failing programs", "why_tests_cant": "Failure can occur at any point.", "anchors": ["src/runtime/mod.rs: call, call_str, call_str_ret, run", "src/lib.rs: Call"]}
{"id": "C48", "title": "Arithmetic operators are total on their documented types", "statement": "`+ - * / % ^` on numbers, vec4, mat4, strings, links return the documented combination for each pair of supported types and an error for every other pair; no pair of values panics.", "quantifier": "all pairs of values", "why_tests_cant": "All type pairs times infinite values.", "anchors": ["src/dyon_std/mod.rs: add, sub, mul, div, rem, pow, not, neg"]}
{"id": "C49", "title": "Evaluation is determined by program and state", "statement": "Whatever an expression, a call from Rust, `main` or a thread does (value, error, final state) does not depend on how long it was allowed to run: two evaluations of the same program in the same state that both come to an end give the same outcome.", "quantifier": "all programs, all states, all lengths of execution", "why_tests_cant": "Concerns all pairs of executions, of any length.", "anchors": ["src/runtime/mod.rs: expression, call_internal, run, call_str_ret, go"]}
{"id": "C50", "title": "Accepted functions give back what they declare", "statement": "When the type checker accepts a file, every function has a type; every value that a return statement, an assignment to `return` or the body of an expression function gives is compatible with it; a function that declares a result has a return statement; conditions of `if` are compatible with `bool` and the blocks with each other; `+=` and `-=` are used on types that have them; no result of a statement is dropped; threads are started on functions with a result; swizzles are taken of vectors.", "quantifier": "all graphs of nodes, all preludes", "why_tests_cant": "The checker walks graphs of any size and shape in several rounds.", "anchors": ["src/lifetime/typecheck.rs: run (after propagation), check_fn, check_if"]}
{"id": "C51", "title": "Type propagation finds exactly the types that the rules give", "statement": "When the type checker accepts a well-formed file, every node to which a typing rule of the language gives a type has exactly that type, whatever the order and number of rounds; a node without a declared type has a type only if a rule gives it (calls that choose among signatures excepted); a declared variable has the type of its right side; and every supplied argument is compatible with the declared type of its parameter.", "quantifier": "all well-formed graphs of nodes, all preludes, any number of rounds", "why_tests_cant": "The result depends on the order in which nodes are visited, revisited and refined, over graphs of any size.", "anchors": ["src/lifetime/typecheck.rs: run (propagation)", "src/lifetime/typecheck/refine.rs: declaration, prelude"]}
{"id": "C52", "title": "Options, results and objects can be asked for what they hold", "statement": "`is_ok`, `is_err`, `unwrap`, `unwrap_or`, `unwrap_err` give exactly what the option or result holds and fail otherwise; what `some`, `ok` and `err` wrap is what comes out; `min` and `max` of an array give the smallest and largest number, NaN when there is none; `has` and `keys` agree with the keys of the object.", "quantifier": "all stacks and values", "why_tests_cant": "Concerns all values, including NaN and references.", "anchors": ["src/dyon_std/mod.rs: is_ok, is_err, unwrap, unwrap_or, unwrap_err, some, ok, err, min, max, has, keys"]}
{"id": "C53", "title": "The checkers work on the syntax tree with operators applied from the left", "statement": "Converting the tokens of a file gives exactly the nodes of the syntax tree, each node before its children, in the order of the text; the passes over operators never fail and leave the tree in which every operator is a call with two arguments grouped to the left, unary operators are calls, and sums and products of one part are that part; sorting in memory changes the places of nodes only.", "quantifier": "all files of the grammar, any nesting and number of operators", "why_tests_cant": "Nodes are rewired by index in place while being visited; the result must hold for every nesting of operators and every place of the nodes in memory.", "anchors": ["src/lifetime/node.rs: convert_meta_data, rewrite_unop, rewrite_binop, simplify", "src/lifetime/mod.rs: check_core (lines 40-158)"]}
{"id": "C54", "title": "A variable is linked to its nearest declaration", "statement": "In a file that is accepted every variable is linked to the nearest enclosing declaration of its name: the loop, the last `:=` before it, or the parameter, looking from the inside to the outside, and leaving a closure only as `grab` asks for; this declaration is the only one that qualifies. A file rejected for a variable has a variable without such a declaration at the reported place. Names are those of the text with `mut` marks and words of closures added.", "quantifier": "all files whose syntax trees have names where they are looked up and something below the left side of each assignment; any nesting of blocks, loops and closures", "why_tests_cant": "Declarations are found by walking through indices of parents and children and by bisection in a list of places; shadowing, grabbing and nesting combine without limit.", "anchors": ["src/lifetime/mod.rs: check_core (lines 159-470)"]}
{"id": "C55", "title": "The checks of a file accept exactly what is right", "statement": "A file is accepted exactly when every variable has a declaration, loops without an end have a range, arguments and functions have different names, extra signatures fit their function, and every call and `in` names a function with the right number of values; calls are then linked to the only function of that name in the file or else to one from outside. Otherwise the error and the place it is reported at name something that is wrong. The checks do not panic.", "quantifier": "all files whose syntax trees have names where they are looked up and something below the left side of each assignment; any nesting of blocks, loops and closures; all functions from outside", "why_tests_cant": "Eight passes with their own searches share one graph that is changed in between; both directions must hold for every file.", "anchors": ["src/lifetime/mod.rs: check_core (lines 159-735)"]}
{"id": "C56", "title": "The lifetime checks accept exactly the safe files", "statement": "The lifetime checks of a linked file accept it exactly when the signatures are good, every value that is assigned, declared, returned, given to a function or left at the end of a block may refer to something that outlives its place (the longest of what it may refer to, which must be comparable), constraints between the arguments of a called function hold for what is given, constrained arguments start with a variable and are not used with `go`, and no function without a result has an argument with lifetime 'return. Otherwise the error names something unsafe and its place. The checks end, and they panic only when a value reads `return` or a closure has parameters. Files that the conversion and linking passes accept meet the conditions of this.", "quantifier": "all linked graphs of files without aliases in calls and without swizzles given to functions with constraints; all fuel values above the size of the graph; all functions from outside with constraints between their arguments", "why_tests_cant": "Whether a value outlives its place depends on chains of lifetimes of any length, on the nesting of expressions and on the signatures of all called functions; both directions must hold for every file.", "anchors": ["src/lifetime/mod.rs: check_core (lines 744-1142)", "src/lifetime/lt.rs", "src/lifetime/node.rs: Node::lifetime"]}
{"id": "C57", "title": "Immutable arguments are not changed", "statement": "In a file that the checks accept, no argument or current object without `mut` is changed: it is not assigned to, nothing is put into it, and it is not given to a function as `mut`. Every such error names an immutable variable that is changed.", "quantifier": "all linked graphs as in C56", "why_tests_cant": "The claim is about every assignment and every call of every file.", "anchors": ["src/lifetime/mod.rs: check_core (lines 1060-1142)"]}
{"id": "C58", "title": "The standard library keeps its declared types", "statement": "Every function of the standard library, called with arguments of the types of one of its signatures, does not panic, takes its arguments off the stack, changes nothing but arrays, and a result has the declared type. Operators and most functions always have a result. Declarations are well formed, every function is found by its name, and special signatures are cases of the general one.", "quantifier": "all functions of the library that are modelled (110 of 145), all their signatures, all values, stacks and states with valid references, all explanations of secrets", "why_tests_cant": "The type checker trusts the declarations of the library; whether they hold is a statement about all values of all declared types, including references and nested values.", "anchors": ["src/module.rs: Module::new (lines 70-772)", "src/dyon_std/mod.rs", "src/prelude.rs"]}
{"id": "C59", "title": "Indexing a vector or a matrix agrees with the named functions", "statement": "s(v, i) is x, y, z or w of v; rv(m, i) is the row rx, ry, rz or rw of m; cv(m, i) is the column cx, cy, cz or cw of m; other indices are errors; rows and columns hold the same numbers.", "quantifier": "all vectors, matrices, indices, states, and arguments by value or by reference", "why_tests_cant": "The claim is about all matrices and all numbers as index; a test with a symmetric matrix or index does not see the difference.", "anchors": ["src/dyon_std/mod.rs (lines 314-430)"]}
{"id": "C60", "title": "A text that follows the grammar becomes the syntax tree that the grammar describes", "statement": "For every file whose meta data follow the rules of syntax.txt, the conversion reads all of it, ignores nothing, and gives exactly the namespace, imports and functions that the rules describe: arguments with their types, marks, lifetimes and lazy invariants, and every expression with its parts, operators applied from the left, several loop indices as loops within each other, words and mut as parts of names. A file has one meaning, and the checker reads the same types.", "quantifier": "all trees of meta data of the grammar, of any depth and length", "why_tests_cant": "About fifty mutually recursive converters share one token stream and silently skip what they do not know; only a proof over all trees shows that none of them loses or reorders a part.", "anchors": ["src/ast/mod.rs (from_meta_data functions, convert)", "src/ty.rs (lines 468-597)", "assets/syntax.txt", "src/lib.rs (lines 722-758)"]}
{"id": "C61", "title": "What follows the grammar is what the checkers need", "statement": "For every file that follows the grammar and whose assignments have more than a constant on the left, whose closures are called without mut, that has no bare return under !, - or a norm, and whose grabs have levels of at least 1: the file becomes its syntax tree, the passes before the type checker terminate without panic, and they accept it with every variable and call linked to the right place or reject it at the place of something wrong. In an accepted file every call without an alias is of the only function of its name with as many values as it has arguments. If calls have no alias or swizzles and closures no lifetimes, then the lifetime checks say exactly what is unsafe.", "quantifier": "all trees of meta data of the grammar, of any depth and length, and all functions from outside", "why_tests_cant": "The linking and lifetime passes index and unwrap by what they believe the parser produces; whether every text of the grammar keeps that belief is a statement about all trees of some fifty node kinds at once.", "anchors": ["src/ast/mod.rs (from_meta_data functions, convert)", "src/lifetime/mod.rs (check_core)", "src/lifetime/node.rs (convert_meta_data)", "src/lifetime/kind.rs", "assets/syntax.txt"]}
{"id": "C62", "title": "In an accepted file every variable is known and every function can be called", "statement": "For every file that follows the grammar, fulfils the conditions of C61, introduces variables by statements and at the start of for loops only (x := without ? after it), gives every loop an end that does not use the variable of the loop, and has no unrolled loops: if the passes before the type checker accept it, then in the syntax tree that is run every variable is declared before it in its function or closure (or is an argument, a current object or return), every call is of a function of the file, or else one from outside, with as many values as it has arguments, and no two functions of the file have the same name.", "quantifier": "all trees of meta data of the grammar under the conditions, of any depth and length, and all functions from outside", "why_tests_cant": "The checkers look at a graph of their own that was built from the same text as the syntax tree, with other names, other nestings and operators turned into calls. That a variable found in one is known in the other is a statement about all texts, and it is false in seven small corners that no test file has.", "anchors": ["src/lifetime/mod.rs (check_core)", "src/lifetime/node.rs (convert_meta_data)", "src/ast/mod.rs (convert, from_meta_data functions)", "src/ast/replace.rs", "src/ast/infer_len.rs"]}
{"id": "C63", "title": "An accepted text runs the same with and without debug_lookup", "statement": "For every file under the conditions of C62 that the passes before the type checker accept, read into a module whose external functions are those the checkers were told of, and whose functions have no lazy invariants, no grabs and the shapes of C17: after loading, every call refers to a function with as many arguments as values are given, the program is well-scoped, and every run of main and every call of a function from Rust finds each variable at the same place by its number and by its name, so that the builds with and without debug_lookup do the same.", "quantifier": "all texts of the grammar under the conditions, all executions of any length, all external functions with the contract of C16", "why_tests_cant": "It joins five passes that each have their own idea of a scope: parser, graph of the checkers, call resolution, slot numbers and evaluator. Agreement on every program and every path is not testable.", "anchors": ["src/ast/mod.rs (convert, get_locals of Call and Function)", "src/module.rs (register, find_function)", "src/lifetime/mod.rs (check_core)", "src/runtime/mod.rs (item)"]}
{"id": "C64", "title": "Running an accepted text never breaks the interpreter's bookkeeping", "statement": "For every file under the conditions of C63 that the passes before the type checker accept, however variables are looked up: no run of main and no call of one of its functions from Rust with the right number of values ends in a panic that says that the interpreter lost track of its own state. These are: no call on the call stack, no value on the stack, a missing or too large slot number, leaving a function that was not called, a call of a function that is not there, an operator without its operand, a swizzle of a fifth component, a link loop whose body is no link, and a loop of a kind that does not exist. The same holds for every well-scoped program and for threads that run a function with a result. What the grammar has to give for this (letters of swizzles, bodies of link loops) is given by every text of the grammar.", "quantifier": "all texts of the grammar under the conditions, all well-scoped programs, all executions of any length, all ways to look up variables, all external functions with the contract of C16", "why_tests_cant": "Each of these is an unwrap, expect or panic in the evaluator that relies on what parser, checkers and slot resolution did before. Tests only show the absence on the programs tried.", "anchors": ["src/runtime/mod.rs (pop, call_fn, get_local, swizzle, link_for_n_expr, go)", "src/ast/mod.rs (LinkFor, Swizzle)", "assets/syntax.txt (35-37, 78, 91-92)"]}
{"id": "C65", "title": "The standard library keeps what the interpreter relies on", "statement": "Every modelled function of the standard library takes exactly as many values off the stack as its declaration has arguments, and no more than these if it fails; it leaves module, call stack, local variables and current objects alone; it gives well-formed values back; and its panics are none that stand for broken bookkeeping. Hence, if the functions that are not modelled keep this contract, the library as a whole does. What the checkers are told about the library (names, numbers of arguments) is what the interpreter finds when it looks a function up. So every accepted text that uses the library runs the same with every way to look up variables and without a panic of the bookkeeping, with no further assumption on the modelled functions.", "quantifier": "all functions of the library, all states with enough values on the stack, all arguments; all accepted texts under the conditions of C63 and all their executions", "why_tests_cant": "The contract is about every value a function can be given, also values of the wrong kind, dangling references and the paths that fail half-way; and about about a hundred functions that each pop their arguments by hand.", "anchors": ["src/dyon_std/mod.rs", "src/module.rs (new, find_function)", "src/runtime/mod.rs (call_void, call_return, call_lazy, call_bin_op, call_un_op)", "src/lifetime/mod.rs 660-690"]}
{"id": "C66", "title": "Calls through values", "statement": "`call` and `call_ret`, given an object that holds a loaded module, a name and an array, do exactly what calling that function of that module from Rust does once the three values are taken off the stack, provided the function exists, takes that many arguments and its lifetimes allow them; otherwise nothing is run, there is an error and the three values are gone. `call`, `call_ret`, `next` and `wait_next` keep the contract of external functions, to any depth of calls through values. Hence programs of several accepted modules that call each other through values never panic because the interpreter lost track of its stacks, with every way to look up variables.", "quantifier": "all modules, objects, names, argument arrays and states; all depths of nested calls; all accepted texts under the conditions of C63 and all their executions", "why_tests_cant": "Which function runs is only known at run time, so none of the static checks covers the call; and the module may call back, to any depth.", "anchors": ["src/dyon_std/mod.rs 1410-1559 (_call, call_ret)", "src/dyon_std/mod.rs 2086-2113 (wait_next, next)", "src/runtime/mod.rs 1217-1228 (call)", "src/dyon_std/lifetimechk.rs (check)"]}
{"id": "C67", "title": "Importing modules keeps what functions call", "statement": "When the functions of a module are copied behind those of another one (`import`, `import_tr_prelude`), each copy calls exactly the functions the original calls, even when the importing module has other functions of the same names, and the slots of its variables are those that looking them up in the importing module would give. Hence every module made by any sequence of imports, transitive imports, external imports and loading of texts that the checkers accept with the declarations of that module has only well-scoped functions; programs of such modules never panic because the interpreter lost track of its stacks, whether they are run or called from Rust, with every way to look up variables and with calls through values.", "quantifier": "all modules, all sequences of imports and loads, all accepted texts under the conditions of C63, all their executions", "why_tests_cant": "What a copied function calls depends on its place among all functions of all modules imported before it, and names may be declared again in any of them.", "anchors": ["src/module.rs 19-67 (import_ext_prelude, import_tr_prelude, make_transitive, import)", "src/ast/mod.rs 21-62 (convert), 519-540 (get_locals)", "src/prelude.rs 126-136 (from_module)", "src/runtime/mod.rs 953-1026 (go)"]}
{"id": "C68", "title": "Formatting a text keeps its content", "statement": "`fmt` (write.rs) changes only spaces and line breaks. The strings, the comments and the other characters of a text are the same before and after, strings and comments included with their blanks; the result has one line per element, indented by the depth of the brackets; blanks of the text do not matter, so formatting twice is formatting once. Data that is written as text and formatted is read as the same data.", "quantifier": "all texts, all widths of a tab, all data", "why_tests_cant": "The formatter is an automaton over characters with nested comments, strings and escapes; it has to keep step with the reader on every text.", "anchors": ["src/write.rs 892-1008 (Comment, fmt)", "src/dyon_std/mod.rs 975-977 (fmt__tab_string)", "src/dyon_std/data.rs 14-389"]}
{"id": "C69", "title": "Types are written as they are read", "statement": "`Type::description` writes a type so that the grammar of texts reads it up to its end and the conversion gives that type back; two types have different descriptions. Every type that can be written in a text has a description. The list of functions that a program can ask for has one entry for every external and every loaded function, with the descriptions of its types, sorted by name, functions of equal names in the order of their declarations; it is made without a panic for the standard library and every module that was loaded from a text.", "quantifier": "all types, all texts that follow a type, all lists of functions", "why_tests_cant": "Types nest without bound, names of ad-hoc types are any text, and the grammar is an ordered choice without backtracking past a match: whether a text is read as the type it was written for depends on all the other rules.", "anchors": ["src/ty.rs 67-155 (description)", "assets/syntax.txt rules 100 and 101 (type, ad_hoc)", "src/dyon_std/functions.rs 7-85 (list_functions)", "src/ty.rs 468-600 (from_meta_data)"]}
{"id": "C70", "title": "Meta data keeps its tokens", "statement": "The values that a program gets for the tokens of a parse (`parse_syntax_data`) hold every token with its place, kind, name and value, in order; different tokens give different values. `json_from_meta_data` writes the tokens of a parse without a panic as the members of a JSON object, in order; different token lists have different texts; in braces, the text loads as the object with the members of the tree.", "quantifier": "all lists of tokens in which every start has its end, at every depth", "why_tests_cant": "The commas and the indentation of a token depend on all tokens before it, over trees of any depth; that two trees never have the same text is a statement about all pairs of trees.", "anchors": ["src/dyon_std/meta.rs 15-57 (parse_syntax_data)", "src/dyon_std/meta.rs 185-282 (json_from_meta_data)", "src/dyon_std/mod.rs 1985-1998", "src/dyon_std/data.rs 14-389"]}
{"id": "C71", "title": "Rust functions get their arguments in order", "statement": "A Rust function declared with `dyon_fn` that is called from Dyon runs its body exactly if every argument can be converted to the type of its parameter and every Rust object is given once, is free and has the right type. The body sees what the arguments hold, in the order of the parameters. Afterwards the arguments are gone from the stack, the locks are released, and at most the object that was given with `&mut` has changed. If the body is not run, nothing changes but the stack.", "quantifier": "for all forms of declarations, parameter lists, argument values, stacks, heaps of Rust objects and bodies, including bodies that panic", "why_tests_cant": "The macro has about twenty forms, each with any number of parameters; which of them a test uses is fixed at compile time, and locks that are held too long show only when one object is given twice.", "anchors": ["src/macros.rs:7-61", "src/macros.rs:66-341", "src/embed.rs:56-266"]}
{"id": "C72", "title": "The rules of types hold for accepted files", "statement": "When the passes before the type checker accept a file whose trees can be typed (only assignments have a left side, call arguments are single expressions without `?` and not swizzles, `:=` declares plain variables, uses are stored behind their declarations, and extra signatures fit the declared parameters), then the graph that the type checker gets is well formed. If the type checker accepts it as well, every node has the type that the rules give, and the arguments of each call go with the declared types of the parameters.", "quantifier": "for all such files of the grammar, all functions from outside, all sorting functions that keep the tree, all numbers of rounds", "why_tests_cant": "It connects four passes (conversion, operators, linking, types): a graph that one of them leaves in a form the next does not expect shows only for particular nestings of operators, calls and declarations.", "anchors": ["src/lifetime/mod.rs:20-90", "src/lifetime/typecheck.rs:12-680", "src/lifetime/node.rs:392-683"]}
{"id": "C73", "title": "The whole check of a file gives the types of its functions, and errors suggest similar names", "statement": "When the whole check accepts a file (of the grammar, with the conditions of C72), all names are linked, nothing is unsafe, the types are those of the rules, and the map that is given back has exactly the names of the functions with their types: one for each, and everything returned in a function goes with it. When it rejects a file before types are checked, something is wrong at the place it names. The suggestions for an unknown function list exactly the functions whose names begin with what is searched for, and looking for them never stops the process.", "quantifier": "for all such files, all functions from outside, all numbers of rounds; for all names (any characters) and all lists of functions", "why_tests_cant": "The suggestions are sliced by the number of characters but in bytes, so that only names with particular characters show the fault; the map of types is only as right as all the passes before it.", "anchors": ["src/lifetime/mod.rs:17-38", "src/lifetime/mod.rs:1143-1195"]}
{"id": "C74", "title": "Every type error has its reason in the file", "statement": "When the type checker rejects a graph (well formed, with call arguments only in calls; every file of the grammar with the conditions of C72 gives one), then with types that the typing rules find one after the other, starting from the types written in the file, something is wrong at exactly the node that the error is reported at, and it is what the number of the error says: no signature of the called function takes the arguments, the called variable is no closure, an index of a loop is used with ?, a void expression is grabbed, a returned type does not go with the function around, a component is no number, an argument does not go with a parameter that it supplies; or, when no rule gives another type any more, a body, a return, a condition, a branch, an unused result, a swizzle, a += or a go is at odds with the types. The types of an accepted file are found by the rules in the same way.", "quantifier": "for all graphs, all files with these conditions, all functions from outside, all numbers of rounds, all fuels", "why_tests_cant": "An error may come from a complaint that was delayed over many rounds and is no longer justified; only some orders of visiting nodes show it.", "anchors": ["src/lifetime/typecheck.rs:46-789", "src/lifetime/typecheck.rs:792-910", "src/lifetime/typecheck/refine.rs:1-160"]}
{"id": "C75", "title": "The nodes that a program gets from the checker tell the graph", "statement": "`check__in_string_imports` gives an array with one object for every node of the checker, in order; each object has exactly the parts of its node (kind, children, names, parent, type, flags, places, lifetime, declaration, operator, lifetimes of arguments). Different graphs (with numbers up to 2^53 and types that can be written) give different arrays. For an accepted file (with the conditions of C72) the types in the array are those of the typing rules and parents and children agree; a file that is rejected for a lifetime gives its linked nodes; only a text that cannot be parsed gives an error. The process stops exactly if a node has the type of a secret of something else than bool or f64.", "quantifier": "all lists of nodes and places; all files of the grammar with the conditions of C72, all functions from outside", "why_tests_cant": "That two graphs never give the same array is a statement about all pairs of graphs; the connection to the typing rules is over all files.", "anchors": ["src/lifetime/mod.rs 1200-1257 (to_array)", "src/lib.rs 591-608 (check_str)", "src/dyon_std/mod.rs 1315-1407 (check__in_string_imports)"]}
{"id": "C76", "title": "The string library: split, lines, ends, ASCII, types and panics", "statement": "`split` gives exactly the pieces between the characters that are the first character of one of the separators, references to variables included: together with the separators they are the text, and no piece has a separator. `lines` gives exactly the lines of the text, each without its line end. `starts_with` and `ends_with` answer whether the text begins or ends with the other one. The ASCII functions change exactly the letters and keep the number of characters. With arguments of the declared types, every function except `regex_matches` gives a value of the declared result and leaves the stack as it was below its arguments. No arguments make a function panic, except `regex_matches` with a Rust object that is not a pattern.", "quantifier": "all texts, separators, stacks and arguments; all Unicode tables and all regex engines", "why_tests_cant": "Texts and separators are unbounded, the arguments can be references through any number of variables.", "anchors": ["string/src/lib.rs 10-67 (declarations)", "string/src/lib.rs 69-130 (functions)", "src/macros.rs 52-60, 115-123 (arguments)", "src/embed.rs 56-70"]}
{"id": "C77", "title": "Images: setting a pixel changes that pixel only, copying is exact", "statement": "`pxl__image_pos_color` changes exactly the pixel at the place, to the bytes of the colour; all other pixels, all other images and all names stay the same. `pxl__image_pos` gives the colour of the bytes at the place. Both are errors exactly for places outside the image and for values that stand for no image. Setting the colour that was got changes nothing. New images are empty, have the size that was asked for, and their number or object stands for them; images that were there stay. Every image is always rows of its width with bytes from 0 to 255.", "quantifier": "all images, places, colours (all f32 including NaN), stacks and arguments", "why_tests_cant": "The image and the numbers are unbounded; that no other place of the buffer is touched is a statement about all places of all sizes.", "anchors": ["interactive/src/lib.rs 471-632", "src/vec4.rs 229-233 (places)"]}
{"id": "C78", "title": "Draw lists are drawn as their commands mean", "statement": "`draw_2d` makes exactly the calls of the graphics that the commands of the list mean, in order; each call has the draw state and the matrix that the commands before it left (an absolute transform starts from the first matrix, a relative one from the last). Items that are no arrays and unknown commands do nothing. Every command that a function of graphics2d.dyon pushes is understood with the types that it pushes, so a list of them is drawn to its end without an error or a panic, if its fonts and textures are there. A list of which the references are good stops the process only at an item that is empty, has too few arguments, or is an image with a number without a texture.", "quantifier": "all draw lists, stacks, matrices, draw states and graphics back ends", "why_tests_cant": "Lists and states are unbounded, and the commands are written in two languages that nothing checks against each other.", "anchors": ["interactive/src/lib.rs 635-894 (draw_2d)", "interactive/src/graphics2d.dyon", "src/runtime/mod.rs 411-414, 451-456"]}
