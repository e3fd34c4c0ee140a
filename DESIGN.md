# Formal model of Dyon in Rocq (Coq 8.16.1)

Source modelled: `/repo` (PistonDevelopers/dyon at the pinned commit), read as text.
Everything below lives in `/verif/rocq/theories`.

## Conventions

* `Syntax.v`, `Float64.v` and `*Model.v` contain only definitions. Each definition cites the file
  and lines of `/repo` it models. Each file names its simplifications in its first comment.
* `*Spec.v` contain what the theorems are stated with: small definitions that do not use the
  helpers of the models.
* `*Proofs.v` and `Balance*.v` contain lemmas.
* `P_*.v` contain the property theorems, each followed by `Print Assumptions`, with an `Example`
  that meets its hypotheses in a concrete case that is not trivial, and the refutations.
  `Samples.v` has the programs used in the examples.
* A Rust panic is an explicit value, `Err(String)` is an explicit value; both are different from
  success and from running out of fuel. Error texts are reduced to short labels (no stack trace and
  no source ranges).
* A full statement that is false of the model is refuted by a theorem `..._refuted` with a concrete
  witness. A weaker true statement has the suffix `_partial`.
* f64/f32 are `Coq.Floats.SpecFloat.spec_float` with precision 53/1024 and 24/128: IEEE-754
  binary64/32 with round to nearest even and one NaN. No axiom is involved.
* `seeded/LOG.jsonl` records the wrong programs the theorems were tried against.

## Plan per property

| id | model | proof |
|----|-------|-------|
| C01-C04 | `LinkModel.v`: blocks as 124 words and 4 tag words, heap of counted blocks and strings | `LinkBlockProofs.v`, `LinkProofs.v`, `LinkHeapProofs.v`: bit-level lemmas, exact counts as an invariant over all histories, refinement to lists |
| C05 | `Syntax.v` values, `InterpModel.v` deep_clone | `P_Copy.v`: induction over values and reference depth |
| C06, C07, C46, C48 | `StdModel.v` operators | `FloatProofs.v`, `P_Std.v`: case analysis, induction, order lemmas for binary64 |
| C08, C24 | `InterpModel.v` item_lookup, assign | `PathSpec.v`, `PathTrySpec.v` (paths with `?`, lists of positions), `PathProofs.v`, `P_Path.v`, `P_PathTry.v`, `P_PathInsert.v`: get and put along paths |
| C09 | `StdModel.v` array intrinsics | `P_Array.v`: refinement to list operations |
| C10-C14 | `InterpModel.v` loops | `LoopProofs.v`, `P_Loops.v`: a log of passes that does not mention the interpreter |
| C15, C18, C20, C21 | `InterpModel.v` | `P_Control.v`: evaluator equations and induction over expressions |
| C16, C19, C22, C47 | `InterpModel.v` | `Balance*.v`, `P_Balance.v`: induction on fuel over all expressions with a weakest-precondition calculus |
| C17, C49 | `ResolveModel.v` get_locals, `InterpModel.v` in both lookup modes | `ResolveProofs.v`: resolving gives the run-time frame; `RefineProofs.v`: a run that never finds two different slots is the same in both modes, and for any fuel; `P_Resolve.v` |
| C23 | `InterpModel.v` | `P_Current.v` |
| C25 | `InterpModel.v` closures and grab | `GrabProofs.v`, `P_Grab.v`: structural induction |
| C26-C28 | `TypeModel.v` | `TypeProofs.v`, `P_Types.v`: structural induction on types |
| C29-C32 | `LifetimeModel.v` | `LifetimeProofs.v`, `P_Lifetime.v`: order laws, chains of arguments |
| C33, C34 | `ModuleModel.v` | `ModuleProofs.v`, `CallsProofs.v`, `P_Module.v`, `P_Calls.v` |
| C35, C36 | `ChannelModel.v`: small-step machine of threads over mutex, flag and channels | `ChannelProofs.v`, `P_Channel.v`: invariants over all schedules |
| C37 | `ThreadModel.v` | `P_Thread.v`: invariants over histories |
| C38 | `DataModel.v`: writer and reader | `DataProofs.v`, `P_Data.v`: induction on values |
| C39, C40 | `PrintModel.v`: tokens, grammar, printing | `PrintProofs.v`, `PrintExactProofs.v` (the parser as a relation), `P_Print.v` |
| C41, C42 | `TransformModel.v` | `TransformProofs.v`, `InferProofs.v`, `P_Transform.v`: agreement with a substitution that respects scopes |
| C43 | `FoldModel.v` | `P_Fold.v`: induction on literals |
| C44 | `EmbedModel.v` | `P_Embed.v`: induction on Rust types |
| C45 | `ColorModel.v` | `P_Color.v`: 256 channel values lifted to all colours |
| C50 | `TypecheckModel.v`: propagation of types over the graph of nodes and the checks after it | `TypecheckShape.v`, `P_Typecheck.v`: inversion of the checks, induction over the search for returns |
| C51 | `TypecheckModel.v`: the rounds over the todo-list; `TypecheckSpec.v`: the typing rules as a relation | `TypecheckInv.v`, `TypecheckVisit.v`: an invariant of the todo-list kept by each visit; `TypecheckClosed.v`: what the last round adds; `TypecheckReason.v`: every type has a reason; `P_Typecheck.v` |
| C52 | `StdModel.v` | `P_Intrinsics.v`: refinement to specifications on values |
| C53 | `NodesModel.v`: tokens to nodes, operators, names, linking of variables and calls | `NodesSpec.v`: forests, layouts, trees without operators; `NodesProofs.v`: every step of the two passes keeps the meaning of the roots; `NodesLayout.v`: conversion is the layout in preorder; `P_Nodes.v` |
| C54, C55 | `NodesModel.v` (names, linking, checks) | `NodesSpec.v`: scopes, meanings, `wrong` and `right_file`; `NodesScope.v`, `NodesCalls.v`: each pass against its specification; `NodesClean.v`, `NodesFits.v`: the conditions follow from the shape of the syntax tree; `P_Scope.v` |
| C56, C57 | `LivesModel.v`: the twelve lifetime and mutability passes over the linked graph | `LivesSpec.v`: origins of values, how long they live, places, `unsafe`; `LivesProofs.v`: each pass finds exactly the unsafe places of its kind, and the passes end; `LivesFits.v`: the conditions follow from the syntax tree and the linking passes; `P_Lives.v` |
| C58, C59 | `PreludeModel.v`: the table of all 145 functions of a new module with their declarations; the functions of `dyon_std` that `StdModel.v` does not have | `PreludeSpec.v`: types as sets of values on a stack, what a call promises; `PreludeProofs.v`: deep copies, evaluation of calls, operators; `PreludeCalls.v`: functions on the stack; `P_Prelude.v`, `P_Accessors.v` |
| C60 | `AstModel.v`: `from_meta_data` of every node, of types, functions, imports and files | `AstSpec.v`: the grammar as trees with the meaning of each rule; `AstProofs.v`: loops that read a node piece by piece, types, names, operators; `AstParts.v`: every kind of expression; `AstFile.v`: functions and files; `P_Ast.v` |
| C61 | the models of C53 to C60 | `GrammarSpec.v`: what the checkers ask of a text beyond the grammar; `GrammarBuild.v`: reading a tree from its pieces; `GrammarFits.v`, `GrammarCases.v`: every kind of node fits; `GrammarAll.v`: induction over the grammar; `P_Grammar.v` |
| C62 | the models of C53, C55 and C60 | `VisibleSpec.v`: what is known at each place of a syntax tree, and the conditions on texts; `VisibleTree.v`: the trees the checkers see, after renaming and without operators; `VisibleText.v`, `VisibleCases.v`, `VisibleParts.v`, `VisibleAll.v`, `VisibleLoops.v`: what the checkers find in the tree of a node is known in its expression; `VisibleGrammar.v`: induction over the grammar; `VisibleFile.v`: functions and files; `P_Visible.v` |
| C63 | `LoadModel.v`: registering the functions of a file and finding what their calls refer to | `LoadSpec.v`: the conditions of C17 that are no matter of names; `LoadProofs.v`: with known variables they make a program well-scoped; `P_Load.v` |
| C64 | the panics of `InterpModel.v` | `WfSpec.v`: the panics of `bookkeeping` and the conditions that exclude them, kept up by the proof of C16; `LoadSpec.v`: `built`; `BuiltProofs.v`: the grammar gives it; `P_Steady.v` |
| C65 | `LibraryModel.v`: the functions of `PreludeModel.v` as the interpreter finds them | `WfSpec.v`: `ext_ok`; `LibraryProofs.v`: a small calculus of functions that take their arguments off the stack; `P_Library.v` |
| C66 | `DynamicModel.v`: `call`, `call_ret`, `next`, `wait_next`, programs of several modules | calling from Rust (`call_str`, `call_str_ret`) and `WfSpec.v`: `ext_ok`; `DynamicProofs.v`: calls from the outside keep the contract; `P_Dynamic.v` |
| C67 | `ImportModel.v`: imports, loading into a module that has functions, what the checkers are told about it | `ResolveSpec.v`: `scoped_fun`; `ImportProofs.v`: conditions and slots depend on a module only through the functions that are called; `P_Import.v` |
| C68 | `FmtModel.v`: `fmt` and `Comment` | `FmtSpec.v`: a text as a sequence of strings, comments, blanks and other characters, and the layout of such a sequence; `P_Fmt.v`: the automaton gives the layout; `P_FmtRead.v`: the reader of C38 on laid out data |
| C69 | `TypeTextModel.v`: `description`, the rules of the grammar for types, `list_functions` | `TypeTextSpec.v`: the types that can be written, sorted lists, what an entry says; `TypeTextProofs.v`: the rules on a written type; `P_TypeText.v` (conversion by C60) |
| C70 | `MetaModel.v`: tokens as values, `json_from_meta_data` (with the library of C38) | `MetaSpec.v`: trees of named values and their tokens, members of an object; `P_Meta.v`: the text of a tree, read by the reader of C38, and unique |
| C71 | `MacroModel.v`: the forms of `dyon_fn`, bindings, locks, panics | `MacroSpec.v`, `P_Macro.v` |
| C72 | `NodesModel.v` and `TypecheckModel.v` together (`checked` in `TypedSpec.v`) | `TypedSpec.v`: files that can be typed; `TypedFits.v`, `P_Typed.v`: their graphs are well formed, and the rules of C51 hold for them |
| C73 | `CheckModel.v`: the check as a whole, the map of types, suggestions | `P_Check.v`, with the specifications of C54, C56 and C51 |
| C74 | `TypecheckModel.v`, `CheckModel.v` | `TypeErrSpec.v`: how types are found and what each error means; `TypeErrProofs.v`, `TypeErrVisit.v`, `TypeErrArgs.v`, `P_TypeErr.v` |
| C75 | `NodeValModel.v`: `to_array`, `check_str`, the result of `check__in_string_imports`, on `push_var` of `EmbedModel.v` | `NodeValSpec.v`: what an object tells; `P_NodeVal.v`, with C44, C69, C72 and C73 |
| C76 | `StringModel.v`: the functions of the string library with the arguments as `dyon_fn` takes them | `StringSpec.v`: pieces, lines, references, declared types; `P_String.v` |
| C77 | `ImageModel.v`: images as buffers, the functions for images on `pop` of `EmbedModel.v` | `ImageSpec.v`: rows, which pixel is shown, what a value stands for; `P_Image.v` |
| C78 | `DrawModel.v`: arguments of commands, draw states, matrices as a parameter, the calls made | `DrawSpec.v`: the meaning of each command, the commands of graphics2d.dyon; `P_Draw.v` |

## Results per property

Every theorem named here was checked with `Print Assumptions`; each one prints
`Closed under the global context`.

* **C01** Links behave like lists (proved). Refinement of the word/bit level heap model of src/link.rs to plain lists, every history.
  Theorems: `C01_links_are_lists`, `C01_contents`.
* **C02** Link values are persistent (proved). The full statement.
  Theorems: `C02_links_persistent`.
* **C03** Link storage is memory safe (proved). Memory safety proved for every history. Extra: strings are all freed if neck is not used; with neck a string can leak (refuted with a witness).
  Theorems: `C03_memory_safe`, `C03_blocks_freed`, `C03_strings_freed_partial`, `C03_strings_freed_refuted`.
* **C04** Link elements read back unchanged (proved). The full statement.
  Theorems: `C04_slot_read_back`, `C04_push_tip`.
* **C05** Deep cloning removes references and keeps the value (partial). deep_clone proved to give exactly the value with every reference replaced, for every stack whose values hold references only directly inside arrays and objects (sealed). That reachable states are sealed is false: try x wraps a bare variable without copying (C05_try_refuted), so clone, go and thread messages can keep references.
  Theorems: `C05_copy_partial`, `C05_unique`, `C05_unchanged`, `C05_intrinsics`, `C05_thread_partial`, `C05_result_partial`, `C05_message_partial`, `C05_try_refuted`, `C05_try_alias_refuted`, `C05_thread_refuted`.
* **C06** Equality is an equivalence on NaN-free data (partial). Equivalence proved on bool, number, string, vec4, array, object, option data. Matrices and links have no equality and compare as different inside arrays and objects (refuted).
  Theorems: `C06_equal`, `C06_symmetric`, `C06_transitive`, `C06_reflexive`, `C06_secrets`, `C06_not_equal`, `C06_kinds`, `C06_nested_error_refuted`, `C06_api_refuted`.
* **C07** Ordering operators agree with each other (partial). All laws for numbers without NaN and for strings. With NaN, > and >= are true (refuted).
  Theorems: `C07_numbers`, `C07_strings`, `C07_transitive`, `C07_nan`, `C07_other`, `C07_nan_refuted`.
* **C08** Indexed access reads and writes exactly the named element (partial). Reading, writing, updating numbers, inserting and replacing through paths of every length with constant and computed text or number indices, over every stack. Paths with ? go on only with the payloads, which replace what wrapped them (C08_try_partial: outcomes that continue, reading and op=; := through such a path: C08_try_insert, and C08_try_leftover_refuted shows that a ? behind a new key leaves the key). An assignment whose right side is the variable assigned into: C08_write_self. A list of positions as last index reads the same as the positions one after the other if all references are to variables below the list (C08_list_partial); otherwise it panics (C08_list_panic_refuted), and further computed indices after the list are read from the wrong slot (C08_list_refuted). Negative positions are read as 0 instead of being an error (C08_negative_refuted).
  Theorems: `C08_read_partial`, `C08_missing`, `C08_write_partial`, `C08_write_kind`, `C08_update`, `C08_insert`, `C08_replace`, `C08_try_partial`, `C08_try_insert`, `C08_try_leftover_refuted`, `C08_write_self`, `C08_list_partial`, `C08_negative_refuted`, `C08_list_refuted`, `C08_list_panic_refuted`.
* **C09** Array intrinsics match list operations (partial). List operations and frame proved. Refuted: swap panics out of bounds; a negative or NaN position means 0.
  Theorems: `C09_position`, `C09_position_zero`, `C09_push`, `C09_push_ref`, `C09_insert`, `C09_insert_ref`, `C09_pop`, `C09_remove`, `C09_reverse`, `C09_clear`, `C09_swap`, `C09_len`, `C09_len_exact`, `C09_not_array`, `C09_swap_refuted`, `C09_negative_refuted`.
* **C10** Counting loops visit exactly the expected numbers (partial). Every counting loop kind; the passes see a, a+1, ... while below the end, provided the body leaves the loop variable alone (keeps). Exactly b-a passes for integers up to 2^53; C10_stuck shows why not beyond.
  Theorems: `C10_order_partial`, `C10_assign_refuted`, `C10_integers`, `C10_terminates`, `C10_stuck`, `loop_passes`, `loop_passes_run`.
* **C11** Sum and product loops equal the fold of the body (proved). Counting forms: left fold, continue skipped, break stops, stacks back. Loops over a channel: loop_receives; on an empty channel they give no value (refuted).
  Theorems: `C11_fold`, `C11_fold_vec4`, `loop_passes`, `loop_receives`, `loop_receives_run`, `C11_empty_channel_refuted`.
* **C12** Min and max loops return the extremum and where it occurs (proved). Value, NaN rule and the position of the first pass attaining it.
  Theorems: `C12_extremum`, `loop_passes`, `loop_receives`.
* **C13** Any/all loops quantify over the body and explain why (proved). The stored secret is the body's own secret followed by the witness of this loop (innermost first); why() reverses it.
  Theorems: `C13_quantifies`, `loop_passes`, `loop_receives`.
* **C14** Sift and link loops collect the body values in order (partial). Order and content proved for sift and for (nested) link loops. Refuted: link keeps what a pass gave before continue; sift of a bare variable stores references.
  Theorems: `C14_sift`, `C14_link`, `C14_link_in`, `C14_link_continue_refuted`, `C14_sift_reference_refuted`.
* **C15** Labelled break and continue reach the loop they name (proved). C15_passes applies to every log of loop_passes, loop_receives and link loops; C15_cfor to C-style loops; C15_scope: which break/continue can leave an expression; the last two: error at the call.
  Theorems: `C15_scope`, `C15_passes`, `C15_cfor`, `C15_calls`, `C15_call_error`.
* **C16** Evaluating an expression leaves the interpreter stacks balanced (partial). Proved for every expression, program and state without lazy invariants on loaded functions, current objects declared directly in link bodies, C-style loop headers, or overshooting vec4 swizzles; for those it is refuted with witnesses.
  Theorems: `C16_balanced_partial`, `C34_frame`, `C16_lazy_refuted`, `C16_link_loop_refuted`, `C16_vec4_refuted`.
* **C17** A variable name denotes its innermost declaration in scope (partial). get_locals gives every variable of a well-scoped program the number of its innermost declaration, and the builds with and without debug_lookup then do the same in every execution of main, of a call from Rust and of a thread. Well-scoped excludes closures as bare statements, arguments and current objects of one name, return among the arguments of a closure call, declarations in the step of a loop, lazy invariants on loaded functions and vector literals with too many components, for which it is false; and calls with a wrong number of arguments and grabs within grabs, for which nothing is proved.
  Theorems: `C17_numbers`, `C17_expression_partial`, `C17_run_partial`, `C17_builds_agree_partial`, `C17_call_partial`, `C17_thread_partial`, `C17_stray_closure_refuted`, `C17_current_argument_refuted`, `C17_return_argument_refuted`, `C17_step_declaration_refuted`, `C17_lazy_refuted`, `C17_vec4_refuted`.
* **C18** `?` unwraps or returns the error (partial). Payload, error return and the enclosing function proved, also for ? inside paths; refuted inside a swizzle, after an assignment to return, and for in-place paths.
  Theorems: `C18_payload`, `C18_error`, `C18_never_continues`, `C18_variable`, `C18_function_returns`, `C18_path`, `C18_swizzle_refuted`, `C18_after_return_refuted`, `C18_in_place_refuted`.
* **C19** `try` isolates failures (partial). For programs meeting the well-formedness of WfSpec.v. Missing: lazy invariants on loaded functions, current objects declared directly in link bodies or C-style loop headers, overshooting vec4 swizzles (see C16).
  Theorems: `C19_error_caught_partial`, `C34_frame`, `C19_success`, `C19_never_fails_partial`.
* **C20** Lazy operators short-circuit (proved). Any argument position, external and loaded functions, and the operators built on it.
  Theorems: `C20_external`, `C20_loaded`, `C20_short_circuit`, `C20_std`.
* **C21** if/else-if chooses the first true branch (proved). First true condition, only the conditions up to it evaluated, nothing else.
  Theorems: `C21_first_true`, `C21_determined`.
* **C22** Function calls return exactly one value when declared to (partial). For programs meeting WfSpec.v. An early exit of a lazy invariant of a loaded function leaves arguments on the stack (refuted).
  Theorems: `C22_call_result_partial`, `C16_lazy_refuted`.
* **C23** Current objects resolve to the latest live declaration (partial). lookup of the newest declaration, missing names, use in the body, declaration, end with a block: proved for all states. That a declaration ends with its loop is proved for well-formed programs (C23_scope_partial) and false for a declaration in the header of a C-style loop and in a link inside a link loop (both refuted)
  Theorems: `C23_missing`, `C23_newest`, `C23_use`, `C23_declare`, `C23_block`, `C23_scope_partial`, `C23_loop_refuted`, `C23_link_refuted`.
* **C24** Assignment copies rather than aliases (partial). Proved for values holding no references, for every sequence of changes; with references inside (y := [n]; x := y) changes through x are seen through y: C24_refuted.
  Theorems: `C24_declare`, `C24_set`, `C24_independent_partial`, `C24_copy_partial`, `C24_assign_partial`, `C24_refuted`.
* **C25** Closures capture the grabbed value at creation (proved). creation replaces exactly the grabs of its own level by the values at creation; nested closures keep deeper grabs; later assignments do not change a created closure
  Theorems: `C25_create`, `C25_create_error`, `C25_levels`, `C25_nested`, `C25_fixed`, `C25_history`.
* **C26** Type compatibility is reflexive and respects any (proved). Full characterisation of Type::goes_with on secret-free types; secret cases by equations.
  Theorems: `C26_reflexive`, `C26_any`, `C26_void`, `C26_compatible`, `C26_symmetric`, `C26_containers`, `C26_secrets`.
* **C27** Ad-hoc types only mix with themselves, their underlying type, or any (partial). Own underlying type: proved except for secret underlying types, where the statement is false (refuted with a witness).
  Theorems: `C27_names_distinct`, `C27_underlying`, `C27_own_type`, `C27_add_assign`, `C27_own_secret_refuted`, `C27_secret_param_refuted`.
* **C28** Type refinement picks the first matching signature (partial). First matching signature with consistent instantiation proved; the refutations show where type variables end the search or lose layers.
  Theorems: `C28_first_match`, `C28_first_match_mono`, `C28_return_instantiated`, `C28_outcomes`, `C28_later_match_refuted`, `C28_unbound_refuted`, `C28_capture_refuted`.
* **C29** Lifetimes are ordered consistently (proved). transitivity is over the lifetimes the checker computes in a module whose signatures it accepted (C29_reached: that is all of them); over arbitrary values of the type it fails (C29_lists_refuted). C29_length_refuted: the verdict can say more than the declarations do
  Theorems: `C29_converse`, `C29_strict`, `C29_transitive`, `C29_reached`, `C29_locals`, `C29_above_locals`, `C29_declared`, `C29_lists_refuted`, `C29_length_refuted`.
* **C30** Lifetime checking terminates on every accepted signature (partial). exact characterisation of the check. The whole is false: an argument with lifetime 'return ends the check, so a later cycle is accepted and the search for its lifetime never ends (C30_return_refuted)
  Theorems: `C30_exact`, `C30_terminates_partial`, `C30_rejects_partial`, `C30_endless`, `C30_return_refuted`.
* **C31** A composite value outlives no longer than its shortest-lived part (partial). the checker picks the longest lifetime among the parts; the property is false (C31_array_refuted) and holds when all parts have one lifetime (C31_single_partial)
  Theorems: `C31_accepts`, `C31_longest_partial`, `C31_single_partial`, `C31_array_refuted`, `C31_return_refuted`.
* **C32** The run-time lifetime check accepts exactly outliving arguments (partial). exact for references in arrays and objects; references inside options, results and secrets are not looked for (C32_option_refuted)
  Theorems: `C32_check_partial`, `C32_option_refuted`.
* **C33** The latest definition of a function wins, everywhere (partial). plain names proved for all modules and loads; calls through imports proved except for renamed external functions with mutable arguments (C33_rename_refuted). Refuted: laziness is lost through an alias, go alias::f uses the plain name at run time, functions of a rejected file stay loaded
  Theorems: `C33_plain`, `C33_plain_unique`, `C33_agree`, `C33_agree_import_partial`, `C33_import_partial`, `C33_import_first`, `C33_rename_refuted`, `C33_lazy_refuted`, `C33_go_refuted`, `C33_rejected_refuted`.
* **C34** Calls between loaded functions hit the intended function (proved). indices found when a file is loaded, their stability under every growth of the module, and that the run time adds them to the position of the function whose body runs (calls, closures, threads)
  Theorems: `C34_found`, `C34_stable`, `C34_import`, `C34_import_external`, `C34_import_transitive`, `C34_inside`, `C34_frame`, `C34_call`, `C34_closure`, `C34_closure_call`, `C34_thread`.
* **C35** In-channels receive every call exactly once (partial). all interleavings of any number of threads, creations, calls and closings, with relaxed reads of the flag. Exactly once and in order for every thread that knows of the channel (its maker and all that synchronised with it since), and for every thread when loads read the newest write; a thread that has not synchronised may miss it (C35_stale_refuted). The message also holds the current objects (C35_currents_refuted)
  Theorems: `C35_order`, `C35_exact_partial`, `C35_exact_newest`, `C35_maker`, `C35_heard`, `C35_known`, `C35_dropped`, `C35_progress`, `C36_flag`, `C05_message_partial`, `C35_stale_refuted`, `C35_currents_refuted`.
* **C36** No in-channel is forgotten (proved). registered: the critical section of in f has stored the flag, or the lock is free; between push and store inside the critical section the flag is not yet set (C36_inside_refuted)
  Theorems: `C36_flag`, `C36_registered`, `C36_read`, `C36_inside_refuted`.
* **C37** Threads are joined at most once and never share data (partial). at most one join per thread under all interleavings, errors at once for spent and shared handles, results and errors of the thread. False parts: two simultaneous joins of a shared handle both fail and the result is lost (C37_race_refuted), a refused join spends the variable (C37_spent_refuted, C37_clobber_refuted), arguments may share thread handles (C37_clone_refuted) and hold references inside results (C05_thread_refuted)
  Theorems: `C37_first`, `C37_temporary`, `C37_second`, `C37_shared`, `C37_last`, `C37_value`, `C37_error`, `C37_result_partial`, `C37_once`, `C37_no_hang`, `C37_only`, `C05_thread_partial`, `C37_spent_refuted`, `C37_race_refuted`, `C37_clobber_refuted`, `C37_clone_refuted`, `C05_thread_refuted`.
* **C38** Data written as text loads back equal (partial). for every value of the data subset whose numbers are finite and not negative zero in the two trailing places of a vector, and whose keys are not empty, loading what is written gives the value back; printing and parsing of single numbers and strings are parameters with stated laws, which C38_laws shows a concrete library meets; empty keys, results, matrices, NaN and negative zero refuted
  Theorems: `C38_load_partial`, `C38_rest`, `C38_inside`, `C38_laws`, `C38_key_refuted`, `C38_result_refuted`, `C38_mat4_refuted`, `C38_nan_refuted`, `C38_zero_refuted`, `C38_color_refuted`, `C38_trailing_refuted`.
* **C39** Printed closures parse back to the same expression (partial). token level, other operands as leaves; proved for every tree that meets the computable condition readable, which holds for all trees without comparison and negation, and for no other tree (C39_exact); the full statement is refuted: comparisons, negations and not of operators are printed without needed parentheses
  Theorems: `C39_print_partial`, `C39_exact`, `C39_distinct`, `C39_arithmetic`, `C39_compare_refuted`, `C39_compare_left_refuted`, `C39_neg_refuted`, `C39_pow_refuted`, `C39_not_refuted`.
* **C40** Operator sequences group by precedence and to the left (partial). every sequence of operands and operators without comparisons and chained powers is read as the unique tree grouped by precedence and to the left; refuted for comparisons, which group to the right and cannot follow an addition
  Theorems: `C40_left`, `C40_flat`, `C40_group_partial`, `C40_level`, `C40_compare_refuted`.
* **C41** Unrolled vec4 loops equal the loop with the index substituted (partial). Unrolling equals a scoping-correct substitution for plain bodies (variable declared only by block statements, no indexed or assigned occurrence, no inner loop or grab of the same name); evaluating the four components in turn gives the vector. The refuted theorems show bodies where the code replaces too much or too little.
  Theorems: `C41_unroll_partial`, `C41_shadow`, `C41_absent`, `C41_vector`, `C41_bounds_refuted`, `C41_for_in_refuted`, `C41_grab_refuted`, `C41_closure_path_refuted`, `C41_index_refuted`, `C41_assign_refuted`.
* **C42** Inferred loop ranges come from a list indexed by the loop variable (partial). The inferred range ends at the length of a prefix of a path really indexed by the loop variable where it is visible, for bodies whose declarations are block statements. Refuted: base list or deeper index variable declared in the body, declarations in for heads, leaking loop names.
  Theorems: `C42_indexed_partial`, `C42_create`, `C42_nested`, `C42_base_refuted`, `C42_inner_refuted`, `C42_for_refuted`, `C42_leak_refuted`.
* **C43** Constant folding preserves meaning (partial). All literals of any nesting made of parsed constants, arrays, fills, objects with distinct keys, four-component vectors and links; folding is applied by the code to grabbed expressions. Refuted: an object with a key twice folds although evaluation is an error, and a grab of a constant outside a closure folds although evaluation is an error.
  Theorems: `C43_value_partial`, `C43_panic`, `C43_error_partial`, `C43_grab_partial`, `C43_kept`, `C43_duplicate_refuted`, `C43_outside_refuted`.
* **C44** Values pass unchanged between Rust and Dyon (partial). Every supported type at any nesting; usize only to 2^53. Refuted: larger usize values are rounded, popping a too short array panics, a too long array is cut, numbers are limited and rounded when popped as u32 or f32, and references in struct fields are not followed.
  Theorems: `C44_unchanged_partial`, `C44_shape`, `C44_error_partial`, `C44_flat`, `C44_vec4`, `C44_vec4_f64`, `C44_reference`, `C44_current`, `C44_usize_refuted`, `C44_short_refuted`, `C44_long_refuted`, `C44_number_refuted`, `C44_field_refuted`.
* **C45** Hex colours round-trip (proved). All 2^32 colours. The read_color crate is modelled from its documentation; the power conversions are covered for the alpha and the dark (linear segment) channel values, powf itself being outside the model.
  Theorems: `C45_byte`, `C45_print`, `C45_print_parse`, `C45_literal`, `C45_opaque`, `C45_case`, `C45_alpha`, `C45_dark`.
* **C46** Secrets survive arithmetic and are consumed in order (proved). The full statement.
  Theorems: `C46_left`, `C46_compare`, `C46_unary`, `C46_option`, `C46_why`, `C46_where`, `C46_outermost_first`, `C46_explain`, `C46_logic`.
* **C47** Reported errors do not corrupt the embedding API (partial). Module and call stack restored, old stacks intact below; leftovers of the failed call are observable (refuted).
  Theorems: `C47_success_clean`, `C47_error_partial`, `C47_unchanged_refuted`, `C47_run_refuted`, `C47_panic_refuted`.
* **C48** Arithmetic operators are total on their documented types (proved). powf, % on numbers and the matrix products are oracles.
  Theorems: `C48_table`, `C48_values`, `C48_components`, `C48_matrix`, `C48_unary`.
* **C49** Evaluation is determined by program and state (proved). All programs and states of the model; the oracles for float powers, remainders and matrix products are functions.
  Theorems: `C49_expression`, `C49_run`, `C49_call`, `C49_thread`, `C49_unique`.
* **C50** Accepted functions give back what they declare (proved). the checks after propagation; `C50_not_refuted` shows that a literal after `!` is not checked at all
  Theorems: `C50_returns`, `C50_if`, `C50_assign`, `C50_results`, `C50_go`, `C50_swizzle`, `C50_not_refuted`.
* **C51** Type propagation finds exactly the types that the rules give (partial). rules, reasons and arguments are proved in full; a declared variable has the type of its right side unless the two do not go together, and `C51_declaration_refuted` shows that this happens: `x := a < 2` with a secret `a` gives `x` the type `bool` and the right side `sec[bool]`. The well-formedness of graphs (tree, declarations before uses, signatures that fit the declared parameters) is a hypothesis; C72 proves it for the graphs of accepted files, and it is proved for the samples and for the signatures of operators (`fit_any`)
  Theorems: `C51_closed`, `C51_exact`, `C51_declaration_partial`, `C51_declaration_refuted`, `C51_arguments`.
* **C52** Options, results and objects can be asked for what they hold (proved). the order of the keys is unspecified; the text of the messages is not modelled
  Theorems: `C52_ask`, `C52_unwrap_or`, `C52_wrap`, `C52_best`, `C52_has`, `C52_keys`.
* **C53** The checkers work on the syntax tree with operators applied from the left (proved). The tokens are those of a syntax tree with balanced nodes, the parser of types and the sorting crate are parameters with a specification; that operands fit their operators is what the grammar gives.
  Theorems: `C53_conversion`, `C53_layout`, `C53_operators`, `C53_sorted`, `C53_graph`, `C53_functions`, `C53_other_functions`.
* **C54** A variable is linked to its nearest declaration (proved). For files whose syntax trees meet `file_fits` (names where the grammar has them, something below the left side of an assignment). As in the code, the level of `grab` counts only for local variables and for parameters of closures (`C54_grab_refuted`); the statement that it is checked for all variables is refuted.
  Theorems: `C54_names`, `C54_one_meaning`, `C54_variables`, `C54_undeclared`, `C54_grab_refuted`, `C54_call_declares_refuted`.
* **C55** The checks of a file accept exactly what is right (proved). For files whose syntax trees meet `file_fits`; outside of it the code panics (`C55_panic_refuted`). If the sorting crate does not keep declared variables in order the code searches an unsorted list; this case has a result of its own and nothing is claimed for it.
  Theorems: `C55_graph`, `C55_checked`, `C55_exact`, `C55_calls`, `C55_panic_refuted`.
* **C56** The lifetime checks accept exactly the safe files (proved). For graphs that meet `lives_fit`, which follows from the conversion and linking passes for files that meet `good_file` and `lively_file` (`C56_linked`). Swizzles as arguments and reading `return` are outside of it; the code goes wrong there (`C56_swizzle_refuted`, `C56_panic_refuted`). That a composite value is as long-lived as its longest part is the rule of the code, not of this claim's author: see `C31_array_refuted`.
  Theorems: `C56_verdict`, `C56_exact`, `C56_ends`, `C56_decides`, `C56_outlives`, `C56_return`, `C56_assign`, `C56_linked`, `C56_file`, `C56_swizzle_refuted`, `C56_panic_refuted`.
* **C57** Immutable arguments are not changed (partial). Missing: `a.x := b` changes `a` and is not checked (`C57_insert_refuted`).
  Theorems: `C57_immutable_partial`, `C57_error`, `C57_insert_refuted`.
* **C58** The standard library keeps its declared types (partial). Proved for every modelled function of the table of module.rs and every signature, except three. `cv` is declared to return vec4 and returns mat4 (C58_calls_refuted); `swap` panics out of bounds (C58_procedures_refuted); `str__color` is proved separately, for components that are 32-bit floats (C58_color). What the declarations cannot express is refuted: `push` breaks the element type of an array (C58_elements_refuted), comparing options can be an error (C58_options_refuted). 35 functions that read files, load modules, wait for threads or write text are in the table without a body.
  Theorems: `C58_operators`, `C58_functions_of_one`, `C58_operators_defined`, `C58_functions_of_one_defined`, `C58_calls_partial`, `C58_procedures_partial`, `C58_calls_defined`, `C58_well_formed`, `C58_found`, `C58_special`, `C58_results`, `C58_color`, `C58_calls_refuted`, `C58_procedures_refuted`, `C58_elements_refuted`, `C58_options_refuted`.
* **C59** Indexing a vector or a matrix agrees with the named functions (partial). Everything but columns: `cv` gives the whole matrix for every matrix and index (C59_column_refuted).
  Theorems: `C59_component`, `C59_row`, `C59_bounds`, `C59_rows_columns`, `C59_column_refuted`.
* **C60** A text that follows the grammar becomes the syntax tree that the grammar describes (proved). AstSpec.v gives the rules of the grammar with their meaning; AstModel.v is every from_meta_data function. Ranges and error texts are left out. The refutations are about trees of the grammar: the words of a call of a closure are lost when its last index is not a name, mut is lost in calls of closures, and files with an open loop that cannot be inferred or with a lazy invariant that is not constant are refused after functions were registered.
  Theorems: `C60_type`, `C60_type_checker`, `C60_expression`, `C60_argument`, `C60_function`, `C60_file`, `C60_one_meaning`, `C60_words_refuted`, `C60_mut_refuted`, `C60_loop_refuted`, `C60_lazy_refuted`.
* **C61** What follows the grammar is what the checkers need (proved). Joins C53, C55, C56 and C60: the hypotheses on trees and graphs of the earlier theorems follow from the grammar and the two conditions of GrammarSpec.v, which are on the text. The sorting of nodes by the crate tree_mem_sort is a parameter with its contract as hypothesis. The refutations show that the conditions are needed: 1 = 1 and a call of a closure with mut make the linking passes panic.
  Theorems: `C61_linkable`, `C61_traceable`, `C61_checked`, `C61_no_panic`, `C61_lifetimes`, `C61_calls`, `C61_assign_refuted`, `C61_closure_refuted`, `C61_rejected_refuted`, `C61_lifetime_refuted`.
* **C62** In an accepted file every variable is known and every function can be called (proved). Carries the verdict of the linking passes over to the syntax tree. The conditions are on the text (linkable, traceable of GrammarSpec.v and regular of VisibleSpec.v); each part of regular has a refutation of the statement without it. The uses of return and what is grabbed from outside of a closure are not claimed; calls through an alias are excluded by traceable.
  Theorems: `C62_visible`, `C62_functions`, `C62_rejected`, `C62_array_refuted`, `C62_range_refuted`, `C62_receive_refuted`, `C62_try_refuted`, `C62_left_refuted`, `C62_open_refuted`, `C62_unrolled_refuted`.
* **C63** An accepted text runs the same with and without debug_lookup (proved). Joins C60, C62 and C17 through LoadModel.v (registration and call resolution without aliases, for a module with external functions only). The conditions that are no matter of names (shaped of LoadSpec.v) are those of C17, whose refutations show that they are needed; grabs and lazy invariants are excluded. External functions are any that keep the contract ext_ok.
  Theorems: `C63_scoped`, `C63_accepted`, `C63_run`, `C63_call`.
* **C64** Running an accepted text never breaks the interpreter's bookkeeping (proved). The panics are those of the list bookkeeping of WfSpec.v. Not in it: index, which a vector literal with a swizzle reaches (C64_index_refuted), and no caller, which external code reaches (C47). Threads have to run a function with a result; that the checkers ask for it is not derived here.
  Theorems: `C64_built`, `C64_expression`, `C64_run`, `C64_call`, `C64_thread`, `C64_accepted_run`, `C64_accepted_call`, `C64_void_thread_refuted`, `C64_index_refuted`.
* **C65** The standard library keeps what the interpreter relies on (proved). Discharges the contract of external functions (ext_ok) that C16, C17, C63 and C64 assume, for the modelled functions of the library; 35 functions (IOther in PreludeModel.v) are still assumed to keep it. C65_contract_refuted: a function that takes too much breaks the bookkeeping; C65_panic_refuted: other panics are left.
  Theorems: `C65_functions`, `C65_contract`, `C65_told`, `C65_runnable`, `C65_run`, `C65_call`, `C65_contract_refuted`, `C65_panic_refuted`.
* **C66** Calls through values (proved). A Rust object is modelled as held while the call through it runs; locking it again is Panic locked, not a panic of the bookkeeping (C66_locked_refuted, a finding). Modules import nothing from each other; loading and the lifetimes of a loaded function are oracles. Waiting on a channel somebody may still send on does not end.
  Theorems: `C66_contract`, `C66_call_as_from_rust`, `C66_call_ret_as_from_rust`, `C66_refused`, `C66_locked`, `C66_held`, `C66_scoped`, `C66_run`, `C66_call`, `C66_locked_refuted`.
* **C67** Importing modules keeps what functions call (proved). Namespaces and aliases are left out; the declared lifetimes of functions are a parameter with the right number of entries. Functions started by go are looked up by name when run, so they are not kept (C67_go_refuted, a finding).
  Theorems: `C67_calls_kept`, `C67_scoped_kept`, `C67_slots_kept`, `C67_empty`, `C67_import_ext_prelude`, `C67_import_tr_prelude`, `C67_make_transitive`, `C67_import`, `C67_told`, `C67_load`, `C67_made`, `C67_run`, `C67_call`, `C67_go_refuted`.
* **C68** Formatting a text keeps its content (partial). Nothing but spaces and line breaks changes, for all texts; short enough texts and tabs give a result. Strings and comments are kept, and the layout is the one of `FmtSpec.v`, for texts in which strings have no escapes but quotes, comments have no quotes, no comment is directly followed by a string, slashes occur only in comments and comments in the style of C have no slashes or stars inside; the full statement is refuted for each of these. Data is read back if it has no vectors, links, `none()` or strings with escapes; refuted for those.
  Theorems: `C68_content`, `C68_layout`, `C68_pieces_partial`, `C68_blanks`, `C68_twice`, `C68_total`, `C68_read`, `C68_laws`, `C68_string_refuted`, `C68_escape_refuted`, `C68_remark_refuted`, `C68_quote_refuted`, `C68_slash_refuted`, `C68_stars_refuted`, `C68_words_refuted`, `C68_link_refuted`, `C68_vec4_refuted`, `C68_width_refuted`.
* **C69** Types are written as they are read (partial). Types that can be written are read back, for all texts that do not continue with `[`; descriptions of two such types differ; a type that was read from any text has a description. The list of functions is complete, sorted and stable, and made whenever the types have descriptions, which holds for the whole standard library. Not for all types: names of ad-hoc types that start with a word of the grammar, `void` and secrets of other types (refuted). `description` is not compared with the texts of the type checker's errors.
  Theorems: `C69_read`, `C69_unique`, `C69_total`, `C69_source`, `C69_list`, `C69_list_total`, `C69_std`, `C69_ends`, `C69_blanks`, `C69_prefix_refuted`, `C69_void_refuted`, `C69_secret_refuted`, `C69_body_refuted`.
* **C70** Meta data keeps its tokens (partial). Values: for places up to 2^53. Text: for fewer than 2^32 tokens with every start ended, which is what a parser gives; total for all of them, unique and loadable for finite numbers, under the laws of C38 and C68 on the libraries that quote, print and parse. Loaded, of members with the same name the last is kept (refuted otherwise). For other arrays, which the declaration allows, the function panics or writes no JSON (refuted). The parser itself is not modelled.
  Theorems: `C70_values`, `C70_total`, `C70_load`, `C70_unique`, `C70_fields`, `C70_counts`, `C70_same_name_refuted`, `C70_short_refuted`, `C70_order_refuted`, `C70_kind_refuted`, `C70_nan_refuted`.
* **C71** Rust functions get their arguments in order (partial). all forms of dyon_fn with any parameters; proved exactly when the body runs and with what; refuted: one object given for two parameters, even for copies, makes the thread wait for its own lock, and an argument that cannot be converted leaves the arguments before it on the stack
  Theorems: `C71_call`, `C71_kept`, `C71_not_called`, `C71_values`, `C71_panic`, `C71_twice_refuted`, `C71_leftover_refuted`.
* **C72** The rules of types hold for accepted files (proved). from the tokens of a file through conversion, operators, linking and type checking; the conditions on files are hypotheses. Not shown from the text: that a use is stored behind its declaration (`declared_before`, it depends on the order that the crate tree_mem_sort gives), files that cannot be traced (aliases, swizzles as arguments), `?` behind arguments, and that the extra signatures of functions in the file fit the declared parameters (`own_fit`; not implied by the checks because the relation of types is not transitive)
  Theorems: `C72_well_formed`, `C72_types`, `C72_arguments`, `C72_text`.
* **C73** The whole check of a file gives the types of its functions, and errors suggest similar names (partial). the check as a whole with the conditions of C72 as hypotheses; suggestions for all names. Refuted: looking for suggestions stops the process for some names that are not ASCII (C73_searched says exactly for which), and for a name of one letter with mut every function is suggested. Errors of the type checker are in C74
  Theorems: `C73_good`, `C73_rejected`, `C73_searched`, `C73_listed`, `C73_suggested`, `C73_panic_refuted`, `C73_all_refuted`.
* **C74** Every type error has its reason in the file (proved). every error of the type checker is at a node where, with types that the rules find, what its number says is wrong; for all well-formed graphs and for whole files with the conditions of C72
  Theorems: `C74_inferred`, `C74_errors`, `C74_file`.
* **C75** The nodes that a program gets from the checker tell the graph (proved). all lists of nodes; files with the conditions of C72. The nodes that are left after errors of names or types are not modelled (to_array itself is for any nodes); the list of operators of a node, which is not used after operators are replaced, is not told
  Theorems: `C75_told`, `C75_panic`, `C75_unique`, `C75_file`, `C75_rejected`, `C75_syntax`, `C75_operators_refuted`, `C75_numbers_refuted`.
* **C76** The string library: split, lines, ends, ASCII, types and panics (proved). the functions of Rust's library are modelled after their documentation; Unicode tables and the regex engine are parameters. Refuted: regex_matches never panics; a separator is matched as a whole
  Theorems: `C76_split`, `C76_lines`, `C76_ends`, `C76_ascii`, `C76_case`, `C76_matches`, `C76_compiled`, `C76_typed`, `C76_safe`, `C76_object_refuted`, `C76_separator_refuted`.
* **C77** Images: setting a pixel changes that pixel only, copying is exact (proved). all images, places and colours; up to 2^53 images for the number of a new one. The crate image is modelled after its documentation, files are parameters. Refuted: saving never stops the process; sizes are told exactly
  Theorems: `C77_bytes`, `C77_clamped`, `C77_get`, `C77_set`, `C77_copy`, `C77_size`, `C77_no_image`, `C77_create`, `C77_create_object`, `C77_load`, `C77_names`, `C77_save`, `C77_save_refuted`, `C77_size_refuted`.
* **C78** Draw lists are drawn as their commands mean (proved). all draw lists; the crate graphics is a parameter. The commands of graphics2d.dyon are listed in DrawSpec.v with the types of what is pushed. Refuted: typed commands never stop the process; every list of arrays is drawn
  Theorems: `C78_draws`, `C78_library`, `C78_no_error`, `C78_stops`, `C78_texture_refuted`, `C78_items_refuted`.

## Trusted base

* The kernel of Coq 8.16.1, including `vm_compute`.
* What `Print Assumptions` lists: nothing, for every theorem of the manifest. The standard library
  modules that are loaded declare axioms that no theorem uses: `Coq.ssr.ssrunder.Under_rel.*` (seven
  names, reported by `vcheck` for the loaded environment).
* The reading of the Rust source recorded in the comments of the models: that each definition says
  what the cited lines do. There is no extraction and no tested link between the Rust text and the
  model.
* Of the Rust library, as documented: `Vec`, `HashMap`, `Arc`, `Mutex`, relaxed atomics, mpsc
  channels, saturating float to integer casts, IEEE arithmetic on f32/f64.
* Parameters of theorems stand for what is not modelled; the theorems hold for every choice:
  `powf`, `%` of f64, the matrix products of vecmath, external functions (with their declared
  arity where a theorem needs it), whether an allocation succeeds, what the file system and the
  clock return.

### What is modelled

* `src/link.rs`: everything except the printing of a link.
* `src/runtime/mod.rs`, `runtime/for_n.rs`, `runtime/for_in.rs`, `grab.rs`: every expression, calls
  of loaded, external, lazy and closure functions, `go`, `in`, current objects, all loop forms,
  `try`, the entry points `run`, `call_str`, `call_str_ret`.
* `src/lib.rs`: values, `deep_clone`, `PartialEq`, `Thread`, the argument checks of `Call`.
* `src/dyon_std/mod.rs`: the operators, secrets (`why`, `where`, `explain_*`), array intrinsics,
  options and results, `min`, `max`, `has`, `keys`, `str__color`, `srgb_to_linear__color`, `linear_to_srgb__color`, `join__thread`,
  `call`, `call_ret`, `next`, `wait_next`,
  vectors, matrices, numbers, links, texts, `typeof`;
  `dyon_std/data.rs`, `dyon_std/lifetimechk.rs`: everything except error texts.
* `src/dyon_std/meta.rs`: `parse_syntax_data` after the parser, and `json_from_meta_data`.
* `src/dyon_std/functions.rs` and the rules of `assets/syntax.txt` for types.
* `src/ty.rs`, `lifetime/typecheck.rs` and `lifetime/typecheck/refine.rs`; the type checker works on the
  graph of nodes as the checker finds it.
* `src/lifetime/node.rs` (`convert_meta_data`, rewriting of operators), `lifetime/kind.rs` and lines 17-1257 of
  `lifetime/mod.rs`: operators, names, linking of variables and calls, arguments and signatures, and the
  checks of lifetimes and of `mut`.
* `src/lifetime/lt.rs`, the lifetime functions of `lifetime/node.rs`, the argument and assignment
  checks of `lifetime/mod.rs`.
* `src/module.rs` with the table of the standard library and imports (without namespaces), `src/prelude.rs`, the call lookup of `src/ast/mod.rs`.
* The construction of the syntax tree from meta data (`from_meta_data` and `convert` of `src/ast/mod.rs`, types in
  `src/ty.rs`), without ranges and error texts.
* The `get_locals` functions of `src/ast/mod.rs` (slot numbers of variables).
* `src/ast/replace.rs`, `src/ast/infer_len.rs`, the unrolling of vector loops, `precompute`.
* `src/write.rs`: values, the formatter, and operators at the level of tokens. The operator rules of
  `assets/syntax.txt` and `BinOpSeq::into_expression`.
* `src/embed.rs`, `src/vec4.rs`, `src/mat4.rs`, the stack access functions of the runtime, and the
  macros `dyon_obj` and `dyon_fn`.
* `string/src/lib.rs`: all functions; Unicode tables and the crate regex are parameters.
* `interactive/src/lib.rs` 471-632: the functions for images; opening and saving files are parameters. Lines 635-894: `draw_2d`, with the
  crate graphics as a parameter.

### What is not modelled

* The parser (piston_meta): how a text becomes meta data. `AstSpec.v` and `NodesSpec.v` say which trees of meta
  data the rules of `assets/syntax.txt` give.
* The crate that sorts the nodes in memory (a parameter with a specification).
* Files, HTTP, the random generator, `load`, `import` as file operations, time, printing to the
  console, error messages and their positions.
* Trigonometric and other float functions of the standard library, and `trim`, `chars`, `parse` of Rust: they are
  parameters. The functions of the library that the table of `PreludeModel.v` lists as
  `IOther`, except `call`, `call_ret`, `next` and `wait_next` (`DynamicModel.v`).
* Sharing of memory behind `Arc`: values are trees. Reference counts matter only in `link.rs` and for
  thread handles, where they are modelled.
* Windows and events of the interactive crate (`interactive/src/lib.rs` 40-470). The crates image, graphics and regex are
  parameters, or modelled after their documentation as said in `ImageModel.v`, `DrawModel.v` and `StringModel.v`.
* Memory exhaustion and stack overflow of the host; the iteration order of `HashMap`.

## Findings

What the refutations and failed proofs say about the code. Each line that names a theorem has a
machine-checked witness in the model.

Links, values, operators
* A string in a link leaks after `neck` (`C03_strings_freed_refuted`).
* `==` inside arrays and objects turns "cannot compare" into false, and Rust's `PartialEq` on
  variables is not an equivalence (`C06_nested_error_refuted`, `C06_api_refuted`).
* `>` and `>=` are true with NaN (`C07_nan_refuted`).
* `cv` returns the whole matrix (`C58_calls_refuted`, `C59_column_refuted`). `push` into an array of numbers accepts a text
  (`C58_elements_refuted`); `==` on options is declared, and is an error when the contents cannot be compared
  (`C58_options_refuted`).
* `swap` panics out of bounds; a negative or NaN position means 0 (`C09_swap_refuted`,
  `C09_negative_refuted`, `C08_negative_refuted`). A list of positions as an index does not move on to
  the next computed index (`C08_list_refuted`). It panics when the arrays on the way hold a reference to a
  variable declared after the list: `p := [0, 0]; n := [7]; a := [n]; a[p]` (`C08_list_panic_refuted`).
* `try x` and options keep a reference to a local, so copies, threads and results can hold dangling
  references (`C05_try_refuted`, `C05_try_alias_refuted`, `C05_thread_refuted`, `C24_refuted`,
  `C32_option_refuted`).

Loops and control
* A loop variable at 2^53 is stuck (`C10_stuck`); a body may assign the loop variable
  (`C10_assign_refuted`). A sum over an empty channel has no value (`C11_empty_channel_refuted`).
* `continue` in a link loop keeps what the pass gave before; `sift` of a bare variable stores
  references (`C14_link_continue_refuted`, `C14_sift_reference_refuted`).
* An early exit in a lazy argument leaves slots on the stack, a link loop leaks current objects, a vec4
  with too many swizzle components shifts the stack (`C16_*_refuted`, `C23_*_refuted`).
* `?` inside a swizzle, after `return = x`, and on a place that is changed behaves differently
  (`C18_*_refuted`).
* After an error the stacks hold leftovers; `run` does not restore the call stack; a function
  without `return` value called for one panics (`C47_*_refuted`).

* Slot numbers are wrong after a closure that is a statement of its own, for a current object with the name
  of an argument, for `return` among the arguments of a closure call, after `continue` in a loop
  whose step declares a variable, after an early exit from the lazy argument of a loaded function, and after a
  vector literal with a component too many: the release build then reads another variable (`C17_*_refuted`).

Types, lifetimes, modules
* `sec[bool]` parameters and ad-hoc types over secrets (`C27_*_refuted`); a type variable ends the
  search for a signature or is captured (`C28_*_refuted`).
* A literal after `!` is not checked: `!"x"` has type `sec[bool]` (`C50_not_refuted`).
* A variable may keep the type that its right side had before refinement: `x := a < 2` with a secret `a`
  gives `x` the type `bool`, and the assignment stays undone without a word (`C51_declaration_refuted`).
* The level of `grab` is not checked for parameters of the function and for variables of loops; `5 = 3` and
  `\f(mut a)` make the checker panic; `f(a) := b` declares a variable `f` (`C54_*_refuted`, `C55_panic_refuted`).
* The declared variables are searched by bisection in a list that is sorted only if the crate that sorts the
  nodes keeps them in order; the model has a third result for that case.
* The verdict on two lifetimes may come from the length of a chain (`C29_length_refuted`). A `'return`
  lifetime ends the check for cycles, and the search for the lifetime then never ends
  (`C30_return_refuted`). The longest lifetime of the parts is taken (`C31_array_refuted`), and
  comparing `Return []` panics (`C31_return_refuted`).
* `a.x := b` changes an argument without `mut` and may put anything into it (`C57_insert_refuted`).
* A swizzle among the arguments of a call shifts the lifetimes of the arguments: a local variable can be returned
  through such a call, `go` makes the checker panic, and a function with a `mut` argument is not found
  (`C56_swizzle_refuted`). Reading `return`, and `=` between parameters of a closure, make the checker panic
  (`C56_panic_refuted`).
* A renamed import of an external function with a mutable argument is not found at run time, laziness
  is lost through an alias, `go alias::f` uses the plain name, functions of a rejected file stay
  loaded (`C33_*_refuted`).

Threads, data, parsing
* A thread that has not synchronised may miss a channel; messages also hold the current objects
  (`C35_*_refuted`); the flag is not set between push and store (`C36_inside_refuted`).
* A refused join spends the handle; two joins at the same time both fail (`C37_*_refuted`).
* Data: empty keys, results, matrices, NaN and infinity cannot be loaded; negative zero in the last
  two components is lost; a colour is not consumed; trailing text is ignored (`C38_*_refuted`).
* Printing leaves out needed parentheses (`C39_*_refuted`). Comparisons group to the right and cannot
  follow an addition (`C40_compare_refuted`).
* The replacement of loop variables ignores some scopes and replaces in places it should not
  (`C41_*_refuted`); the inferred range may name a list that is declared later (`C42_*_refuted`).
* The words of `\a[i](w: x)` are lost, and so is `mut` in calls of closures (`C60_words_refuted`, `C60_mut_refuted`). A
  loop whose end cannot be inferred is left out of its function and everything is registered before the file is
  refused (`C60_loop_refuted`).
* `1 = 1` and `\x(mut x)` make the linking passes panic; `!(return)` and `grab '0` become syntax trees that are never
  accepted (`C61_*_refuted`).
* Accepted, but unknown when run: `y` in `[y := 1, y]`, in `(y := 1)?  y`; `i` in `for i [0, i) {}`, in `for i i {}` over a
  list and after `i = 1` in an unrolled loop; `f` after `f(x) := 1`. The call of `len` in an inferred end is not checked
  (`C62_*_refuted`).
* A thread of a function without result panics (the checkers exclude it), and a vector literal with a swizzle
  panics instead of telling that its last component is no number (`C64_*_refuted`).
* `call` and `call_ret` keep the module object locked while its function runs: a module that calls itself through the
  same object locks it again, which deadlocks or panics (`C66_locked_refuted`).
* `go` looks its function up by name when it is run, in the module the function was imported into: an imported function may
  start another function of that name, with another number of arguments (`C67_go_refuted`).
* Folding accepts a duplicate key and a grab outside a closure (`C43_*_refuted`).
* Popping a short array panics, long arrays are cut, usize is rounded above 2^53 (`C44_*_refuted`).
* `fmt`: after a string with an escape other than a quote the next strings are taken for code, and lose their spaces
  (`C68_string_refuted`, `C68_escape_refuted`). A string on the line after a `//` comment becomes part of the comment
  (`C68_remark_refuted`); a quote in a comment starts a string (`C68_quote_refuted`). Words and the numbers of a link run
  together (`C68_words_refuted`, `C68_link_refuted`), `/ /` becomes a comment (`C68_slash_refuted`). Vectors and `none()` no
  longer load (`C68_vec4_refuted`). A comment that ends with `**/` has no end (`C68_stars_refuted`). A wide tab overflows (`C68_width_refuted`).
* An ad-hoc type whose name starts with `any`, `bool`, `f64`, `str`, `vec4`, `mat4`, `link`, `opt`, `res`, `thr` or `in` cannot
  be written: `inner f64` is read as `in` and then fails; names that start with `sec` fail at once (`C69_prefix_refuted`).
  `void` as a type is read as an ad-hoc type of that name (`C69_void_refuted`). A secret of a type other than `bool` and
  `f64` makes `functions()` panic (`C69_secret_refuted`; only a declaration from Rust can have one, `C69_source`). A function
  that gives an ad-hoc type and has an empty body is not read: `{}` is taken for the type inside (`C69_body_refuted`).
* `json_from_meta_data` panics for an element with fewer than three parts, which its declared type allows, and for an end
  without a start (`C70_short_refuted`, `C70_order_refuted`). A kind it does not know leaves an empty place between commas
  (`C70_kind_refuted`), numbers that are not finite cannot be read (`C70_nan_refuted`), and of members with the same name a
  reader of objects keeps one (`C70_same_name_refuted`).
* A Rust function that takes two Rust objects of one type cannot be given the same object twice, not even when both are copied: the
  guard of the first lock lives until the end (`C71_twice_refuted`). An argument that cannot be converted leaves the arguments
  before it on the stack (`C71_leftover_refuted`).
* `a.k? := e` with a new key `k` is an error, but the object keeps the key with the mark of a function without a result, which the
  host finds in the runtime (`C08_try_leftover_refuted`).
* The suggestions for an unknown function cut its name behind as many bytes as there are characters before the bracket, less one.
  For names that are not ASCII this can be within a character, and the error stops the thread that checks and the host with it
  (`C73_panic_refuted`); for a name of one letter with `mut` all functions are suggested (`C73_all_refuted`).

* The values for the nodes of the checker do not tell the operators of a node, nor numbers from 2^53 on
  (`C75_operators_refuted`, `C75_numbers_refuted`); a secret of a type other than `bool` and `f64` stops the process (`C75_panic`).

* `regex_matches` of the string library is declared for any value and panics for a Rust object that is no pattern
  (`C76_object_refuted`); a separator of `split` counts with its first character only (`C76_separator_refuted`).

* `save__image_file` stops the process for a number without an image (`C77_save_refuted`), and so does creating an image of
  2^63 bytes or more (`C77_create`); widths above 2^24 are not told exactly (`C77_size_refuted`).

* Drawing stops the process for an image with a number without a texture (`C78_texture_refuted`), for an empty item and for a
  command with too few arguments (`C78_items_refuted`).

Noticed while reading, without a theorem
* The string library names kinds of values as older versions did (`Type::Text`, `Variable::Text`); `lib.dyon` says that `regex`
  gives `res[str]` while the table of the crate says any value.
* `check__in_string_imports_usetr` pops its last argument with `expect`: a value that is no `bool` stops the process.
* Calls through an alias are not checked for the number of arguments, and too many make the type checker
  panic. Choosing a signature ignores `?` and the width of swizzles in arguments. The variable of a
  `sum_vec4`, `prod` or `… in` loop gets the type of the loop. Clones of a function share its
  `looked_up` flag.
* `s`, `rv`, `cv` panic by `expect` on arguments of a wrong type; some assignments reach
  `unimplemented!()`.
* An array fill is printed with `,` between value and number.
