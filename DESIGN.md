# Formal model of cddl-cat in Rocq (Coq 8.16.1)

The Rust crate in /repo (cddl-cat 0.7.1) parses CDDL schemas, flattens the
syntax tree into an intermediate tree, and validates CBOR/JSON data against it.
This directory contains a function-by-function model of that code and
machine-checked theorems about it.

## Method

* Every Rust function is a Gallina definition with a comment citing file and
  lines. Recursion that is not structural carries a fuel argument; running out
  of fuel is a separate value (`None`, `NoFuel`), never confused with a result.
  Panics are an explicit result (`Panic`, `Crash`). Mutable state is returned.
* Totality is proved (enough fuel always exists: Total.v for the validator,
  ParserFuel.v for the parser) and from it fuel-free total functions are defined
  (Fun.v, `parse_cddl`); the theorems about the API speak of these.
* Properties are stated in `Props*.v` against small specifications in `Spec*.v`
  that do not use the model's helpers. Each property theorem is followed by an
  Example showing that a concrete, non-trivial case meets its hypotheses.
* Behaviour of external crates is an explicit record argument `ext` (oracles),
  universally quantified in all theorems.
* RepoTests.v and RepoUnit.v run every assertion of the crate's own test suites
  (903 validations of tests/cbor_cddl.rs and tests/json_cddl.rs, the parser and
  flattening unit tests, tests/cbor_ivt.rs, tests/errors.rs, tests/recurse.rs)
  against the model, including the asserted error texts. These are tests of the
  model, not proofs of properties.
* `seeded/LOG.jsonl` records the wrong programs tried against the theorems.  A theorem
  is listed there as failed when its own proof no longer goes through or when a lemma
  it depends on had to be given up.  The second is weaker: the lemma may only restate
  the edited definition.  Entries found to rest on such a lemma alone say so in their
  note, and were run again with the lemma edited in the same way, unless the note says
  that a run was not conclusive.  `failed_proofs` names the proofs that failed themselves;
  `failed` names the property theorems that rest on them.  It is empty where
  nothing failed, where the edit did not compile, and for the runs on ParseCost.v, which
  did not record it.

## Layout of rocq/theories

| Files | Content |
|---|---|
| Base, Util, Value, Data, Ivt, Convert, Scalar, Validate, Ast, Flatten, Nom, Parser, Api | the model |
| Unfold, Mono, Total, Fun | unfolding equations, monotonicity in fuel, termination, fuel-free functions |
| Spec\*.v | specifications the properties are stated against |
| \*Proofs.v, Sim, Stutter, Expand, ArrayInv, MapInv, NoPanic, Peg\*, TameCheck, Orderly\*, Flatten\*, Nom\*, Parser\*, ... | lemmas |
| Props\*.v | one theorem (or several) per property, examples, `Print Assumptions` |
| Demo, RepoTests, RepoUnit | concrete schemas, the crate's tests |

## Trusted base

* Coq's kernel (8.16.1) and the standard library. No axiom is used: `Print
  Assumptions` answers "Closed under the global context" for every theorem
  listed at the end of this file. `vm_compute` is used in Examples only.
* That the model is the code: the definitions were written by reading the source;
  each carries the lines it models; RepoTests/RepoUnit check them on the crate's
  own tests.
* The semantics given to the Rust standard library (Base.v, Value.v: strings as
  lists of code points, `BTreeMap` as a sorted association list, integers as
  mathematical integers with the conversions of the code made explicit) and to
  the nom combinators (Nom.v).

### Modelled

* src/validate.rs: all functions (`do_validate`, `Context`, `ArrayContext`-like
  working arrays and maps with their snapshots, every `validate_*`,
  `deref_range_rule`, `chase_rules`, map search).
* src/context.rs: `LookupContext` (as an arbitrary function), `BasicContext`,
  `DummyContext`.
* src/normalize.rs, src/value.rs (order and equality), src/util.rs (errors, their
  classification and their `Display`), src/ivt.rs (tree, prelude names, limits,
  `Display`), src/ast.rs, src/cbor.rs, src/json.rs, src/flatten.rs (both the plain
  and the slice variant), src/parser/mod.rs and src/parser/parse_err.rs.

### Not modelled

* External crates: the CBOR and JSON decoders, the regex engine, `f64` parsing
  and printing, JSON-style unescaping (escape8259) and base64 decoding are the
  fields of `ext`; nothing is assumed about them (so e.g. "decodes" means "as
  judged by `ciborium::from_reader`", which does not look at trailing bytes).
  Hex decoding is modelled concretely.
* `usize` is 64 bits. Feature `ciborium` is on.
* Stack and memory limits, running time (except the iteration counts of C18, the work of C77 and C79 and
  the nesting of C17), `Debug` formatting, borrowed versus owned parse errors, the
  `Arc`/`Box` structure, thread safety, serde derive implementations.
* Test helper modules of the crate.

## Plan per property

| Id | What is modelled | How proved |
|---|---|---|
| C01-C05 | validate_literal, prelude, range, lt/le/gt/ge | case analysis + lia, IEEE order on bit patterns |
| C06,C07 | size controls, normalize_size_range | lia/nia on powers of 256, UTF-8 length |
| C08 | regexp/cbor with oracles | equations of the total validator |
| C09,C10 | validate_choice | induction on options |
| C11-C13 | Context::lookup_rule/derive | equations of the total validator; reachability relation |
| C14 | generics | simulation between the closure semantics and macro expansion on the class `expandable` (checked by `expandable_b`); refutations outside |
| C15 | whole validator | induction on (50 - depth, node size) with a "good context" invariant |
| C16 | inc_depth | induction on remaining depth |
| C17,C18 | refutation: lower bound on fuel; bounds on a class | induction |
| C19,C20 | whole validator | invariant by induction on fuel |
| C21-C26 | arrays and maps | equations + list induction |
| C27 | whole validator | invariant by induction on fuel |
| C28 | group snapshots | refutations; exact statement for flat groups; in-place law for choices of steady alternatives (`Alternatives.v`); what any failed member may lose (`SpecLoss.v`, `LossProofs.v`) |
| C29,C30 | whole validator | ordered-choice relation `peg` and declarative relation `means`; simulation on the class `tame` with a decision procedure `tame_b` |
| C58 | parser, flattening, conversion, validation | composition of C49 (any layout), C36, C30, C59 and C60 |
| C59 | whole validator | class `orderly` (one element of look-ahead suffices, stated on `means`); induction on the derivation of `means`; decision procedure `orderly_b` (first and follow sets, given the list of names and roles) |
| C60 | whole validator | specification `defect` (of a node in a role and scope, by the schema alone); induction on fuel over all functions: a fatal error comes from a used node with a defect; decision procedures `flawless_b`, `acyclic_b`; with C59 a full decision theorem |
| C61 | whole parser | specification `SpecReading.v` (deterministic reading, without the parser); completeness by induction on readings (`ReadComplete.v`), the converse by strong induction on the length of the text (`ReadExact.v`): a phrase that ends otherwise is followed by text that nothing can parse |
| C62 | parser, flattening, entry points | `Concat.v`: readings of C61 are preserved when a line break and text that starts, after whitespace, with a name is appended (induction on readings); then C38 and C32 |
| C63 | whole parser, errors | specification `SpecErrors.v` (faults of a text, where reading gets stuck); `ErrProofs.v`: a property of parsers (recoverable errors are about a suffix of the input, failures name a fault) closed under every combinator and proved for every parser function; `no rule begins here` by C61 |
| C64 | conversion, validator, entry points | specification `SpecRename.v` (renaming of syntax trees and definitions, capture, prelude names); `RenameProofs.v`: lockstep simulation of the validator under contexts related by renaming; `RenameFlatten.v`: conversion commutes with renaming, names of the result come from the syntax tree, map of rules related; composed in `PropsRename.v`; capture shown to matter by an example |
| C65 | validator, entry points | specification `SpecBlame.v`: what each text means (`complains`, in terms of the value classes of C01-C08 and of the steps of C12) and the way to it (`blamed`); `BlameProofs.v`: induction over the validator functions, loops split at the step that failed; texts of three comparisons name another operator, recorded in the specification |
| C66 | validator (all of it) | specification `SpecActs.v`: `acts question reply`, a snapshot-free rule system saying what each member takes and leaves; `ActProofs.v`: the rules are deterministic, and the validator's run at any fuel yields a derivation (simulation by induction on fuel, with the snapshot stack related to what was taken); both directions follow; entry points, members and the tame case in `PropsActs.v` |
| C67 | whole validator | specification `SpecWiden.v`: relation `wider` between nodes of two schemas, `rules_widened` between their rules; `WidenProofs.v`: `means` is monotone along `wider` (induction on the derivation; scopes of the two schemas related pointwise; claims of keys are antitone); with C29 and C59 this is transferred to verdicts; decision procedure `wider_b`, `rules_b` in `WidenCheck.v` |
| C68 | parser, flatten, validator, entry points | specification `SpecSchema.v`: `says scope phrase what`, a reading of syntax trees that uses neither validation trees nor any function of the model, and `described`; `SchemaBase.v`, `SchemaLeaf.v`, `SchemaProofs.v`: related scopes and contexts, then `means` of the validation tree iff `says` of the phrase it was made from (induction on both derivations); with C61 (text to syntax tree), C58 and C29 the verdict of the entry points on text and data |
| C69 | flatten, entry points | specification `SpecFault.v`: `fault_schema rules error`, the first fault on the syntax alone (using `supported` of C40 for what comes before it); `FaultProofs.v`: the conversion fails with an error iff that is the fault (induction on syntax trees); with C61 and the stages of C36 the entry points |
| C70 | leaf validators, `normalize_size_range`, `deref_range_rule`, `chase_rules` | specification `SpecJudge.v`: `judges scope type value judgement`, a relation that does not mention the validator and gives the message texts in its own words (`SpecText.v`); `JudgeProofs.v`: sound, total and single-valued, hence exact. The readings `peg`, `means` and `acts` of C28-C30, C59, C66 use `judges` for their leaves |
| C71 | validator (all of it), Display of nodes, JSON/CBOR entry points | from the exactness of `SpecActs.acts` (C66), whose replies carry the reported error with its text; entry points through exactness of the conversions |
| C72 | validator (all of it), Display of nodes, entry points | `SpecWords.v`: the list of errors of a schema, computed from its nodes; `WordProofs.v`: induction over the derivations of `SpecActs.acts` with the invariant that all nodes and generic arguments in play are parts of the schema; exactness of `acts` (C71) |
| C73 | conversions of CBOR and JSON data, entry points | `SpecRearrange.v`: the relation on encoded items (congruence closure of reordering and replaced entries); induction over it, each step keeps the meaning (C33, C34); equal meanings give equal results |
| C74 | Display of errors | specification `prints` in `PropsDisplay.v`; case analysis and cancellation of common prefixes and suffixes; last part from C72 |
| C75 | contexts, lookup_rule, derive, inc_depth | `SpecScope.v`: scopes as the history of entered rules, and the relation `resolves`; each scope has a program context, and lookups in it agree; totality and uniqueness of `resolves` by cases |
| C76 | validate and all member validators | Congruence over the exact rule system `acts` (C66): `SpecSwap.swap` relates two schemas that differ by exchanged types, `swapped_rules` two sets of rules. Induction over `acts` shows that replies are alike (same verdict, same elements and entries taken and left); `PropsSwap.v` derives equal verdicts from equality of the exchanged types by themselves. Two counterexamples show why types must agree with the new rules and why inspected definitions are excepted. |
| C77 | cost relation over the questions of the description of C66 (SpecWork.v), heights from C17, using-up from C18 | induction on the height of the chain of calls; the cost of each loop by induction on members, entries or rounds; doubling by induction on the nesting |
| C78 | ranges, comparisons, `.size`, choices, parentheses (Validate.v, Scalar.v), against the list of spellings in SpecSpell.v | each leaf is described by a predicate on values through C70's judgements; choices by an algebra of first decisive verdicts; everywhere by C76 |
| C79 | the whole parser with a counter (ParseCost.v) | erasing the counter gives Parser.v's parser; a bound per combinator and per level of recursion; a limit that is not reached changes nothing; an evaluation of the family by induction |
| C80 | the member parsers, the occurrence and literal parsers, the error of a schema | the literal makes the value fail hard; each way of introducing a value turns that into an entry that ends early and a group that is not closed; the soft error of a rule is always Unparseable |
| C81 | choices from groups in type and map position, scopes of generic rules | the lookup of the group and of each parameter; alternatives with equal outcomes in the same order |
| C31 | map_search | refutation witness + exact characterisation |
| C32 | whole validator | induction on fuel with a closed set of names |
| C33-C36 | cbor.rs, json.rs, Api | induction on trees; BTreeMap as sorted list |
| C37,C38,C40,C41 | flatten.rs | mutual induction on syntax trees |
| C39,C42-C50 | parser/mod.rs over a nom model | induction on fuel/text |
| C51 | value.rs, key search of validate.rs | induction on values; the order against a relation (SpecOrder.v) without the comparison function; the key search from C66 |
| C52,C53 | Occur::symbol, parser | parser run on the printed text; invariant of the parser's result |
| C54 | members in place | independence of earlier snapshots (Frame.v), equations of the total validator |
| C55 | choiceify | induction on fuel (soundness), on the nesting of groups (exactness) |
| C56,C57 | occurrences, choices | equations of the total validator, list induction |

## What the proofs found

Each is a theorem about the model (name in parentheses) or an observation made
while modelling.

1. A group that succeeds inside an alternative throws away the snapshot of the
   enclosing alternative, so data it consumed is not given back when the
   alternative fails later: `[ ((int), tstr) // int, int ]` rejects `[1,2]` and
   `[ ((int,int), tstr) // bool ]` accepts `[1,2,true]` (C28_refuted, C29_refuted,
   C30_refuted).
2. Unwrap (`~name`) takes no snapshot and an occurrence that falls short of its
   lower limit does not rewind (C28_unwrap_refuted, C28_occurrence_refuted,
   C28_map_refuted).
3. An upper occurrence limit of 0 still consumes one element (C23_refuted).
4. An occurrence over a member that consumes nothing iterates up to its limit
   (C18_refuted).
5. Errors raised while testing map keys, also fatal ones, are swallowed
   (C31_refuted).
6. `schar`/`bchar` use the bound 0x10FFD instead of 0x10FFFD (C46_refuted).
7. Looking up a generic parameter restores the depth counter of the caller, so
   the nesting of calls is exponential in the depth limit (C17_refuted; at most a
   power of the schema size, C17_any_partial).
8. Unwrap, `.size` ranges and `&(...)` do not resolve generic parameters
   (C14_refuted_*), a parameter reference with arguments of its own ignores them.
9. -9223372036854775808 is rejected by the parser although it fits an i64 (part of
   C44); `-0` is the negative literal 0.
10. `uint .size 4..4` behaves as `.size 4`, not as a one-point range
    (C06_size_uint_point_range).
11. CBOR maps with duplicate keys keep the last entry; tagged values are
    refused (C33).
12. User rules with prelude names are silently ignored (C37).
13. `grpent_member` discards Failures of the arrow parser; nested parentheses
    are parsed with exponential backtracking; `a = [100000000000000000000.5]` is
    MalformedInteger although `a = 100000000000000000000.5` parses.
14. A LookupContext of the user may return the internal MapCut error; the crate
    does not guard against it (excluded in C20 by a hypothesis).
15. `'...'` byte literals cannot contain CR, LF or 0x7F although RFC 8610 allows
    line breaks.
16. `ciborium::from_reader` ignores trailing bytes, so "decoded completely" in
    C36 is only as strong as the decoder.
17. A name and its definition are not interchangeable as an end of a `.size` range
    and as an item of `&( ... )` (C11_refuted_*), `~a` does not look through a rule
    `a = b` (C54_alias_refuted), and grouping inside an alternative of a group
    choice changes verdicts (C54_nested_refuted).
18. A key search takes the first key of the map that matches, so members of a
    map are matched greedily in key order: `{* tstr => int, a: tstr}` rejects
    `{"a": "x", "b": 1}` (C59_greedy_map_refuted).  Arrays are greedy too:
    `[* int, int]` rejects `[1]`, as RFC 8610 allows (C59_greedy_array_refuted).
19. Some mismatch texts name another limit than the schema: `nint .le n` reports
    "nint over .lt limit", `int .gt n` reports "int over .ge limit", `nint .gt n`
    and `.ge` on nint/int say "over" for a number below the limit, and repeated
    map members are reported as `map{...}]` with a stray bracket (C65, table
    `limit_text`).
20. Adding an optional member can reject documents that were accepted:
    `[? int, int, int]` rejects `[1, 2]` (C67_greedy_refuted) and
    `{? b: int, * tstr => any}` rejects `{"b": "x"}`, which `{* tstr => any}`
    accepts, because `b:` claims its key (C67_cut_refuted).
## Theorems and their assumptions

`Print Assumptions` says "Closed under the global context" for each of these 310
theorems (the command is also at the end of every Props file).

| Property | Theorem | File |
|---|---|---|
| C01 | `C01_literal_exact` | PropsScalar.v |
| C02 | `C02_prelude_exact` | PropsScalar.v |
| C03 | `C03_int_range_exact` | PropsScalar.v |
| C04 | `C04_float_range_exact` | PropsScalar.v |
| C04 | `C04_range_kinds_structural` | PropsScalar.v |
| C04 | `C04_range_not_numbers` | PropsScalar.v |
| C05 | `C05_comparison_exact` | PropsScalar.v |
| C05 | `C05_bad_limit_structural` | PropsScalar.v |
| C05 | `C05_bad_target_structural` | PropsScalar.v |
| C06 | `C06_size_uint_exact` | PropsScalar.v |
| C06 | `C06_size_uint_range_exact` | PropsScalar.v |
| C06 | `C06_size_uint_point_range` | PropsScalar.v |
| C06 | `C06_size_empty_range_rejects` | PropsScalar.v |
| C06 | `C06_size_limit_structural` | PropsScalar.v |
| C06 | `C06_size_range_limit_structural` | PropsScalar.v |
| C06 | `C06_size_argument_structural` | PropsScalar.v |
| C06 | `C06_size_target_structural` | PropsScalar.v |
| C07 | `C07_size_string_exact` | PropsScalar.v |
| C07 | `C07_size_string_range_exact` | PropsScalar.v |
| C08 | `C08_regexp_exact` | PropsScalar.v |
| C08 | `C08_cbor_exact` | PropsScalar.v |
| C09 | `C09_choice_iff` | PropsNames.v |
| C09 | `C09_first_wins` | PropsNames.v |
| C10 | `C10_fatal_option_wins` | PropsNames.v |
| C10 | `C10_fatal_error_wins` | PropsNames.v |
| C11 | `C11_rule_is_definition_type` | PropsNames.v |
| C11 | `C11_rule_is_definition_array` | PropsNames.v |
| C11 | `C11_rule_is_definition_map` | PropsNames.v |
| C11 | `C11_acyclic_within_limit` | PropsNames.v |
| C11 | `C11_anywhere` | PropsRewrite.v |
| C11 | `C11_refuted_size_range` | PropsRewrite.v |
| C11 | `C11_refuted_inline_choice` | PropsRewrite.v |
| C12 | `C12_missing_rule_reported` | PropsNames.v |
| C12 | `C12_reported_name_is_missing` | PropsNames.v |
| C13 | `C13_wrong_arity_reported` | PropsNames.v |
| C13 | `C13_generic_start_rejected` | PropsNames.v |
| C14 | `C14_macro_expansion_partial` | PropsGeneric.v |
| C14 | `C14_checked_partial` | PropsGeneric.v |
| C14 | `C14_refuted_unwrap` | PropsGeneric.v |
| C14 | `C14_refuted_size_range` | PropsGeneric.v |
| C14 | `C14_refuted_inline_choice` | PropsGeneric.v |
| C15 | `C15_terminates` | PropsNames.v |
| C16 | `C16_cycle_reported` | PropsNames.v |
| C17 | `C17_refuted` | PropsNames.v |
| C17 | `C17_plain_partial` | PropsNames.v |
| C17 | `C17_any_partial` | PropsNames.v |
| C17 | `C17_accounted_partial` | PropsNames.v |
| C18 | `C18_refuted` | PropsNames.v |
| C18 | `C18_array_partial` | PropsNames.v |
| C18 | `C18_map_partial` | PropsNames.v |
| C18 | `C18_array_consumes_partial` | PropsNames.v |
| C18 | `C18_map_consumes_partial` | PropsNames.v |
| C19 | `C19_one_call_never_panics` | PropsApi.v |
| C19 | `C19_never_panics` | PropsNames.v |
| C20 | `C20_one_call` | PropsApi.v |
| C20 | `C20_cut_never_escapes` | PropsNames.v |
| C20 | `C20_cut_never_escapes_api` | PropsNames.v |
| C21 | `C21_fixed_array_exact` | PropsData.v |
| C21 | `C21_first_error_reported` | PropsData.v |
| C21 | `C21_too_short` | PropsData.v |
| C21 | `C21_too_long` | PropsData.v |
| C21 | `C21_not_an_array` | PropsData.v |
| C22 | `C22_homogeneous_array_exact` | PropsData.v |
| C22 | `C22_prefix_array_exact` | PropsData.v |
| C22 | `C22_limits` | PropsData.v |
| C23 | `C23_refuted` | PropsData.v |
| C23 | `C23_array_bounds_partial` | PropsData.v |
| C23 | `C23_map_bounds_partial` | PropsData.v |
| C23 | `C23_too_few_rejected_partial` | PropsData.v |
| C24 | `C24_struct_map_exact` | PropsData.v |
| C24 | `C24_not_a_map` | PropsData.v |
| C25 | `C25_table_map_exact` | PropsData.v |
| C26 | `C26_key_found` | PropsData.v |
| C26 | `C26_cut_is_final` | PropsData.v |
| C26 | `C26_group_stops_cut` | PropsData.v |
| C26 | `C26_extensible_map_exact` | PropsData.v |
| C27 | `C27_array_consumed` | PropsData.v |
| C27 | `C27_map_consumed` | PropsData.v |
| C28 | `C28_alternatives_array_partial` | PropsAlternatives.v |
| C28 | `C28_alternatives_map_partial` | PropsAlternatives.v |
| C28 | `C28_refuted` | PropsData.v |
| C28 | `C28_unwrap_refuted` | PropsData.v |
| C28 | `C28_occurrence_refuted` | PropsData.v |
| C28 | `C28_map_refuted` | PropsData.v |
| C28 | `C28_flat_group_array_partial` | PropsData.v |
| C28 | `C28_flat_group_map_partial` | PropsData.v |
| C28 | `C28_group_loss_array_partial` | PropsLoss.v |
| C28 | `C28_member_loss_array_partial` | PropsLoss.v |
| C28 | `C28_group_loss_map_partial` | PropsLoss.v |
| C28 | `C28_member_loss_map_partial` | PropsLoss.v |
| C29 | `C29_soundness_partial` | PropsMeaning.v |
| C29 | `C29_ordered_choice_sound` | PropsMeaning.v |
| C29 | `C29_refuted` | PropsMeaning.v |
| C29 | `C29_checked_partial` | PropsMeaning.v |
| C30 | `C30_ordered_choice_partial` | PropsMeaning.v |
| C30 | `C30_reading_deterministic` | PropsMeaning.v |
| C30 | `C30_refuted` | PropsMeaning.v |
| C30 | `C30_checked_partial` | PropsMeaning.v |
| C31 | `C31_refuted` | PropsData.v |
| C31 | `C31_key_errors_are_mismatches_partial` | PropsData.v |
| C32 | `C32_unreachable_irrelevant` | PropsNames.v |
| C33 | `C33_conversion_exact` | PropsConvert.v |
| C33 | `C33_untagged_converts` | PropsConvert.v |
| C33 | `C33_tag_rejected` | PropsConvert.v |
| C33 | `C33_entry_order_irrelevant` | PropsConvert.v |
| C33 | `C33_last_duplicate_wins` | PropsConvert.v |
| C34 | `C34_conversion_exact` | PropsConvert.v |
| C34 | `C34_validation` | PropsConvert.v |
| C35 | `C35_one_call_agree` | PropsApi.v |
| C35 | `C35_json_cbor_agree` | PropsConvert.v |
| C35 | `C35_corresponding_cbor_exists` | PropsConvert.v |
| C36 | `C36_parse_error_first` | PropsApi.v |
| C36 | `C36_unsupported_second` | PropsApi.v |
| C36 | `C36_missing_rule_third` | PropsApi.v |
| C36 | `C36_bad_data_fourth` | PropsApi.v |
| C36 | `C36_validated_last` | PropsApi.v |
| C36 | `C36_cbor_success` | PropsApi.v |
| C36 | `C36_json_success` | PropsApi.v |
| C37 | `C37_prelude_name_meaning` | PropsFlatten.v |
| C37 | `C37_redefinition_ineffective` | PropsFlatten.v |
| C38 | `C38_success` | PropsFlatten.v |
| C38 | `C38_last_definition_wins` | PropsFlatten.v |
| C38 | `C38_rule_order_irrelevant` | PropsFlatten.v |
| C38 | `C38_first_error_reported` | PropsFlatten.v |
| C39 | `C39_flatten_from_str` | PropsApi.v |
| C39 | `C39_slice_flatten` | PropsFlatten.v |
| C39 | `C39_same_rules` | PropsParser.v |
| C39 | `C39_same_success` | PropsParser.v |
| C39 | `C39_same_errors` | PropsParser.v |
| C40 | `C40_supported_exact` | PropsFlatten.v |
| C40 | `C40_errors` | PropsFlatten.v |
| C41 | `C41_conversion_exact` | PropsFlatten.v |
| C41 | `C41_members_in_order` | PropsFlatten.v |
| C41 | `C41_member` | PropsFlatten.v |
| C42 | `C42_parse_total` | PropsParser.v |
| C42 | `C42_slice_parse_total` | PropsParser.v |
| C43 | `C43_input_covered` | PropsParser.v |
| C43 | `C43_parse_covered` | PropsParser.v |
| C44 | `C44_uint` | PropsParser.v |
| C44 | `C44_nint` | PropsParser.v |
| C44 | `C44_uint_too_large` | PropsParser.v |
| C44 | `C44_nint_too_large` | PropsParser.v |
| C45 | `C45_text` | PropsParser.v |
| C45 | `C45_text_plain` | PropsParser.v |
| C45 | `C45_bytes` | PropsParser.v |
| C45 | `C45_hex` | PropsParser.v |
| C45 | `C45_hex_malformed` | PropsParser.v |
| C45 | `C45_base64` | PropsParser.v |
| C46 | `C46_partial` | PropsParser.v |
| C46 | `C46_refuted_above` | PropsParser.v |
| C46 | `C46_refuted` | PropsParser.v |
| C47 | `C47_rule_name` | PropsParser.v |
| C47 | `C47_reference` | PropsParser.v |
| C48 | `C48_one_call` | PropsApi.v |
| C48 | `C48_longest_run` | PropsParser.v |
| C48 | `C48_layout` | PropsParser.v |
| C48 | `C48_layout_error` | PropsParser.v |
| C48 | `C48_leading` | PropsParser.v |
| C49 | `C49_print_parse` | PropsPrint.v |
| C49 | `C49_any_layout` | PropsPrint.v |
| C49 | `C49_unambiguous` | PropsPrint.v |
| C49 | `C49_canonical` | PropsPrint.v |
| C49 | `C49_accepted` | PropsPrint.v |
| C50 | `C50_parse_sound` | PropsParser.v |
| C51 | `C51_total_order` | PropsConvert.v |
| C51 | `C51_lookup_exact` | PropsConvert.v |
| C51 | `C51_map_extensional` | PropsConvert.v |
| C51 | `C51_insert_remove` | PropsConvert.v |
| C51 | `C51_order_exact` | PropsOrder.v |
| C51 | `C51_sorted` | PropsOrder.v |
| C51 | `C51_first_entry` | PropsOrder.v |
| C52 | `C52_symbol_parses` | PropsPrint.v |
| C53 | `C53_shape` | PropsPrint.v |
| C54 | `C54_group_in_array` | PropsRewrite.v |
| C54 | `C54_group_in_map` | PropsRewrite.v |
| C54 | `C54_unwrap_in_array` | PropsRewrite.v |
| C54 | `C54_unwrap_in_map` | PropsRewrite.v |
| C54 | `C54_nested_refuted` | PropsRewrite.v |
| C54 | `C54_alias_refuted` | PropsRewrite.v |
| C55 | `C55_accepted_is_offered` | PropsRewrite.v |
| C55 | `C55_exact` | PropsRewrite.v |
| C55 | `C55_inline_exact` | PropsRewrite.v |
| C56 | `C56_spelling_array` | PropsRewrite.v |
| C56 | `C56_spelling_map` | PropsRewrite.v |
| C56 | `C56_shorthands` | PropsRewrite.v |
| C56 | `C56_copies_in_array` | PropsRewrite.v |
| C56 | `C56_copies_in_map` | PropsRewrite.v |
| C56 | `C56_copies_array_member` | PropsRewrite.v |
| C56 | `C56_copies_map_member` | PropsRewrite.v |
| C57 | `C57_nested_type` | PropsRewrite.v |
| C57 | `C57_nested_array` | PropsRewrite.v |
| C57 | `C57_nested_map` | PropsRewrite.v |
| C57 | `C57_single` | PropsRewrite.v |
| C57 | `C57_more_options` | PropsRewrite.v |
| C57 | `C57_reordered` | PropsRewrite.v |
| C57 | `C57_order_matters_in_groups` | PropsRewrite.v |
| C58 | `C58_json_exact` | PropsEnd.v |
| C58 | `C58_cbor_exact` | PropsEnd.v |
| C58 | `C58_ordered_choice` | PropsEnd.v |
| C58 | `C58_same_verdict` | PropsEnd.v |
| C59 | `C59_exact_partial` | PropsComplete.v |
| C59 | `C59_mismatch_justified_partial` | PropsComplete.v |
| C59 | `C59_checked_partial` | PropsComplete.v |
| C59 | `C59_greedy_array_refuted` | PropsComplete.v |
| C59 | `C59_greedy_map_refuted` | PropsComplete.v |
| C59 | `C59_empty_alternative_refuted` | PropsComplete.v |
| C60 | `C60_error_has_defect` | PropsDefect.v |
| C60 | `C60_no_defect_no_error` | PropsDefect.v |
| C60 | `C60_checked` | PropsDefect.v |
| C60 | `C60_acyclic` | PropsDefect.v |
| C60 | `C60_decides` | PropsDefect.v |
| C61 | `C61_exact` | PropsRead.v |
| C61 | `C61_unique` | PropsRead.v |
| C61 | `C61_in_grammar` | PropsRead.v |
| C61 | `C61_error` | PropsRead.v |
| C62 | `C62_parse_joined` | PropsConcat.v |
| C62 | `C62_flatten_joined` | PropsConcat.v |
| C62 | `C62_same_verdict` | PropsConcat.v |
| C62 | `C62_replaced` | PropsConcat.v |
| C63 | `C63_errors` | PropsErrors.v |
| C63 | `C63_literal` | PropsErrors.v |
| C63 | `C63_context` | PropsErrors.v |
| C64 | `C64_contexts` | PropsRename.v |
| C64 | `C64_flatten` | PropsRename.v |
| C64 | `C64_json` | PropsRename.v |
| C64 | `C64_cbor` | PropsRename.v |
| C64 | `C64_accepts` | PropsRename.v |
| C64 | `C64_parameters` | PropsRename.v |
| C65 | `C65_mismatch_explained` | PropsBlame.v |
| C65 | `C65_json` | PropsBlame.v |
| C65 | `C65_cbor` | PropsBlame.v |
| C66 | `C66_exact` | PropsActs.v |
| C66 | `C66_answered` | PropsActs.v |
| C66 | `C66_deterministic` | PropsActs.v |
| C66 | `C66_array_member` | PropsActs.v |
| C66 | `C66_map_member` | PropsActs.v |
| C66 | `C66_json` | PropsActs.v |
| C66 | `C66_cbor` | PropsActs.v |
| C66 | `C66_tame` | PropsActs.v |
| C67 | `C67_described` | PropsWiden.v |
| C67 | `C67_widening_partial` | PropsWiden.v |
| C67 | `C67_checked_partial` | PropsWiden.v |
| C67 | `C67_greedy_refuted` | PropsWiden.v |
| C67 | `C67_cut_refuted` | PropsWiden.v |
| C68 | `C68_reading_exact` | PropsSchema.v |
| C68 | `C68_json` | PropsSchema.v |
| C68 | `C68_cbor` | PropsSchema.v |
| C68 | `C68_accepted_described` | PropsSchema.v |
| C69 | `C69_error_exact` | PropsFault.v |
| C69 | `C69_supported_or_fault` | PropsFault.v |
| C69 | `C69_rest_irrelevant` | PropsFault.v |
| C69 | `C69_text` | PropsFault.v |
| C69 | `C69_text_converse` | PropsFault.v |
| C70 | `C70_exact` | PropsJudge.v |
| C70 | `C70_rule` | PropsJudge.v |
| C70 | `C70_one_judgement` | PropsJudge.v |
| C70 | `C70_whatever_value` | PropsJudge.v |
| C71 | `C71_error_exact` | PropsTells.v |
| C71 | `C71_json` | PropsTells.v |
| C71 | `C71_cbor` | PropsTells.v |
| C71 | `C71_choice_message` | PropsTells.v |
| C72 | `C72_errors_from_schema` | PropsWords.v |
| C72 | `C72_mismatch` | PropsWords.v |
| C72 | `C72_json` | PropsWords.v |
| C72 | `C72_cbor` | PropsWords.v |
| C73 | `C73_same_value` | PropsRearrange.v |
| C73 | `C73_same_value_json` | PropsRearrange.v |
| C73 | `C73_cbor` | PropsRearrange.v |
| C73 | `C73_json` | PropsRearrange.v |
| C73 | `C73_cbor_bytes` | PropsRearrange.v |
| C73 | `C73_json_str` | PropsRearrange.v |
| C74 | `C74_printed_exact` | PropsDisplay.v |
| C74 | `C74_printed_injective` | PropsDisplay.v |
| C74 | `C74_printed_from_schema` | PropsDisplay.v |
| C75 | `C75_names_exact` | PropsScope.v |
| C75 | `C75_names_total` | PropsScope.v |
| C75 | `C75_names_unique` | PropsScope.v |
| C75 | `C75_scopes_proper` | PropsScope.v |
| C76 | `C76_interchangeable` | PropsSwap.v |
| C76 | `C76_interchangeable_names` | PropsSwap.v |
| C76 | `C76_int` | PropsSwap.v |
| C76 | `C76_bool` | PropsSwap.v |
| C76 | `C76_equivalence` | PropsSwap.v |
| C76 | `C76_needs_new_rules` | PropsSwap.v |
| C76 | `C76_needs_uninspected` | PropsSwap.v |
| C77 | `C77_defined` | PropsWork.v |
| C77 | `C77_bound` | PropsWork.v |
| C77 | `C77_polynomial` | PropsWork.v |
| C77 | `C77_polynomial_generic` | PropsWork.v |
| C77 | `C77_doubling` | PropsWork.v |
| C78 | `C78_spellings` | PropsSpell.v |
| C78 | `C78_anywhere` | PropsSpell.v |
| C78 | `C78_texts` | PropsSpell.v |
| C78 | `C78_flawless` | PropsSpell.v |
| C78 | `C78_sizes_differ` | PropsSpell.v |
| C78 | `C78_order_needs_flawless` | PropsSpell.v |
| C79 | `C79_counted` | PropsParseWork.v |
| C79 | `C79_depth` | PropsParseWork.v |
| C79 | `C79_nesting` | PropsParseWork.v |
| C79 | `C79_brackets` | PropsParseWork.v |
| C79 | `C79_doubling` | PropsParseWork.v |
| C79 | `C79_no_polynomial` | PropsParseWork.v |
| C79 | `C79_alternatives` | PropsParseWork.v |
| C80 | `C80_reported` | PropsHidden.v |
| C80 | `C80_hidden` | PropsHidden.v |
| C80 | `C80_hidden_literal` | PropsHidden.v |
| C80 | `C80_reported_literal` | PropsHidden.v |
| C81 | `C81_type` | PropsPick.v |
| C81 | `C81_map` | PropsPick.v |
| C81 | `C81_array` | PropsPick.v |
