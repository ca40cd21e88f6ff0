# Formal model of hellux/jotdown in Rocq (Coq 8.16.1)

## 1. What is modelled, and how

The whole library is modelled as executable Gallina, function by function; every definition carries a
comment with the file and lines it models and, where it simplifies, what is simplified.

| Rust file | Coq file | contents |
|---|---|---|
| std (`str`, `u8`, `Vec`) | `Base.v` | bytes (`ascii`), ASCII classes, trimming, list update, result type `Ok / Panic msg / Fuel` |
| `src/lex.rs` | `Lex.v` | `Lexer` (`token`, `next_token`, `peek`, `ahead`, `skip_ahead`) |
| `src/attr.rs` | `Attr.v` | `State::step`, `valid`, `Validator`, `Parser`, `Attributes` queries, `AttributeValueParts`, `Debug` |
| `src/block.rs` | `Block.v` | `lines`, `IdentifiedBlock`, `Kind::continues`, `MeteredBlock`, the whole `TreeParser` (lists, tables, sections, description lists, captions, footnotes, divs) |
| `src/inline.rs` | `Inline.v` | `Input`, `Parser` (all `parse_*`), buffering, `next`, `merge_str_events` |
| `src/lib.rs` | `Doc.v` | list numbering, `PrePass::new`, `Parser::{new,inline,block,next_span}`, `Parser` and `OffsetIter` as `parse` / `parse_spans` |
| `src/html.rs` | `Html.v` | `Renderer`, `Writer`, `Footnotes`, `write_escape`, `Indentation` |

The entry points used by the theorems are `parse_spans` (= `Parser::new(src).into_offset_iter()` run to the
end), `parse` (its events), `html_of` (`html::render_to_string`), `render_events` (`Render::push`),
`attrs_try_from` (`Attributes::try_from`), `block_parse` (`block::parse`).

Modelling decisions:

* **Strings are byte lists** (UTF-8 bytes as `ascii`). All character tests in the Rust code are against ASCII
  characters, and in UTF-8 an ASCII byte never occurs inside a multi-byte character, so scanning bytes and
  scanning `char`s coincide on valid UTF-8. `utf8 : bytes -> Prop` (`SpecAttr.v`) is the independent definition of
  valid UTF-8 the theorems about documents assume; a `&str` always satisfies it.
* **Panics** (slice/index out of range, `unwrap`, `expect`, `usize` underflow, integer conversions,
  `assert!`/`debug_assert!`) are the explicit value `Panic "file:line"`. Hence the no-panic theorem also covers the
  debug assertions.
* **Loops** are structural where possible; otherwise they take fuel and return `Fuel` when it runs out. Termination
  theorems say that `Fuel` is never the result (so the fuel given by the model is always enough).
* **`Cow`, borrowing, `Clone`** are erased: a `Cow<str>` is its contents. `HashMap`/`BTreeMap` are association lists
  with the same lookup result. `Iterator` laziness is erased except where it is observable (the inline parser's
  buffering `must_buffer` is modelled step by step).
* `u16`/`u32`/`u64` arithmetic is modelled with explicit range checks (`to_u16`, `N`, truncation of heading
  positions to `u32`).

`Sink.v` models the same functions of `html.rs` a second time, writing piece by piece to a writer that may refuse a
piece (`fmt::Write`), with the `?` operator, and `push_event(s)`, `write_event(s)` and `WriteAdapter` of `lib.rs:92-152`
(`io::Write`). `PSink` proves that it writes what `Html.v` says. The renderer's state after an error is not modelled.

`Cli.v` models the command (`main.rs`): options, input, renderer, output file or buffered standard output. Reading, creating and
the device written to are parameters; `std::io::BufWriter` is modelled after the standard library (which is not in /repo).
Not modelled there: clap's parsing of the arguments, the line buffer behind `stdout()` (part of the device), printing the error.

Not modelled: the wasm example, the afl fuzz harness, performance, memory
usage, `Render::push_borrowed`/`render_iter_borrowed` wrappers (identical code up to `&`), trait plumbing
(`Hash`, `PartialEq`, `From`).

## 2. Trusted base

* Coq 8.16.1's kernel, and `coqc` building `rocq/` from scratch.
* `Print Assumptions` is run in each `Props*.v` file (on each theorem or on the conjunction of all theorems of the
  file: `PropsDoc_all`, `PropsRefs_all`, ...). It prints *Closed under the global context* for every one of
  them: no axiom, not even one of the standard library, is used. No `Admitted`, no `Axiom`, no section-less
  `Variable`, no functors or module types, no switched-off check. Tactics used: `lia` (whose certificates are checked by the
  kernel), `vm_compute`/`reflexivity` for closed examples (so the kernel's VM conversion is trusted as well).
* That the Gallina definitions of section 1 say the same as the Rust code. This is the only link that is not
  machine-checked. Evidence besides the citations: in a scratch directory (not part of the deliverable) the model was
  extracted to OCaml and run on the inputs of the project's own tests, and its output compared with the expected
  values there: 73 event tests (`tests/parse_events.rs`), 48 block and 78 inline tests, 27
  attribute tests, the tests of `tests/html.rs` and the 52 cases of `tests/html-ut`: no difference. It was also
  run on some hundred thousand random documents looking for violations of candidate properties; several of the
  refuted properties below were found that way.

## 3. Specifications

The vocabulary of the statements lives in small files that do not depend on the proofs:

* `SpecAttr.v`: `utf8`, the attribute grammar (inductive), `unescape`, debug printing.
* `SpecDoc.v`: stack discipline `nest`, ranges, `well_placed` (containment grammar), `sections`, `doc_ordered`.
* `SpecHtml.v`: `inert`, `decode`, numbering of footnotes, `document`, layout equivalence.
* `SpecBlock.v`: list markers and their values; `SpecLex.v`: token tiling.
* `SpecCanon.v`: documents as syntax trees, their source text and their events (C38).
* `SpecSrc.v`: how events are spelled in the source; attribute sets written in the source (C39, C35, C13); `SpecMark.v`: how blocks are marked in the source and where their lines end (C40, C32). `SpecView.v`: which part of a line belongs to the content of the enclosing blocks, and the lines of code blocks (C29).
* `SpecCover.v`: positions in the range of an event, and what may stand elsewhere (C42).
* `SpecOut.v`: the HTML of every event and of a page (C41).
* `SpecWf.v`: HTML as a tree, its text and well-formedness (C23).
* `PropsX.v`: the theorems, each with a comment and beside it examples (`Example`/`ex_…`) showing that a concrete
  non-trivial case meets the hypotheses.

## 4. How each property is proved

Naming: the theorem names start with the property id. `_partial` = something of the English statement is missing;
`_refuted` = a counterexample, proved, for a tempting stronger statement that is false of jotdown.

| property | file | method |
|---|---|---|
| C01 C02 | `PropsDoc` | every function of the block, inline and document layers is shown `safe`: never `Fuel`, and `Panic` only at the two `u16` conversions, by invariants on the parser states (`PBlock*`, `PTree*`, `PInl*`, `PDoc*`) |
| C03 C04 C10 C14 C33 C29 | `PropsDoc` | block events satisfy the grammar `sq` (`PGram`, `PTree8.block_parse_ok`); inline events run an automaton with stack (`PInl2.estep`); the document layer composes both into the grammar `gq` (`PDoc4`), from which each claim follows by induction (`PDoc6`) |
| C33 | `PropsTable` (spec `SpecTable`) | the grammars carry the alignments in force and the separator rows as text between events; which bars delimit cells by the lexer (`PTab0`, `PTable`) |
| C05 C06 C07 C08 C09 | `PropsDoc` | the same grammars carry positions: each event is placed between two cuts of the source; UTF-8 boundaries because cuts are next to ASCII bytes or token ends |
| C11 C12 C13 | `PropsIds`, `PropsRefs` | the pre-pass is related to the block events (`PDoc3.Pre`), ids by freshness of `unique_id`, lookups by correctness of the binary search (`PIds`); `PDoc7` links headings of the events with those of the pre-pass |
| C15–C20 | `PropsAttr` | the byte automaton of `attr.rs` is proved equivalent to the grammar of `SpecAttr` by a simulation (`PAttr`–`PAttr5`) |
| C21 | `PropsPunct` | arithmetic on the run length and the parser step on the token |
| C22 C24–C27 C30 C31 C37 | `PropsHtml` | the renderer: escaping by induction, a stack/level invariant, footnote queue as a prefix of the final numbering, composition of `render_events` |
| C23 | `PropsWf`, `PropsPage` | each event writes tags according to the stack of open elements; an invariant relates the output so far with an unfinished HTML tree (`PWf`–`PWf3`), over event sequences and the endnotes queue (`PWf4`); for whole documents the names come from C35, C39 and C40 |
| C41 | `PropsOut` | the renderer's state is determined by the open containers (`PHtml5`, `PWf3`); each event's output is computed by cases (`POut.out_event`), the deferred `</p>` of footnotes is an invariant of the loop over a note |
| C28 C32 C34 C36 | `PropsLine` | list markers, `lines`, the `u16` limit, the lexer |
| C32 | `PropsConsume` | the block grammar (`PGram`) records that each block ends at a line end after its marker; `SpecMark.whole` says so for the events; induction over the event grammar shows that nothing later begins before |
| C38 | `PropsCanon` | for the text of a tree: the lexer yields the expected tokens (`PCan1`–`PCan5`), the inline parser the expected events (`PCan6`–`PCan12`), each line is identified as intended and each block takes exactly its lines (`PCan14`–`PCan17`), the tree parser runs through an invariant on open lists (`PCan18`–`PCan21`); induction on the tree |
| C29 | `PropsView` | `SpecView` computes, from the events before a code block, where the content of the enclosing blocks begins in each line; the block grammar `sq` carries the same view as an index, and each line list handed down by the tree parser is shown to begin where the view says (`PView`, `PTree5-8`); a stack of views runs along the events (`PDoc4.vrun`) |
| C40 C29 C28 C35 | `PropsMark` | the grammars `sq` and `gq` carry the text of each block's markers, from `IdentifiedBlock::new` (`PMark`) through the tree parser's stack; a stack automaton matches starts with ends |
| C43 | `PropsMark` | the tree parser's `prev_blankline`/`prev_loose` flags and the open lists' flags are tied by an invariant to the blank line events of the open blocks (`PGram.lin`, through `PTree1`–`PTree8`); the block grammar records at each closed list that looseness implies a blank line inside (`loose_ok`), and `SpecMark.marks` says so for the events |
| C44 | `PropsApart` | the tree parser's invariant (`PGram.walk`, through `PTree1`–`PTree8`) says of the visible block events that neighbours are `apart`: a block ends where `continues` fails, and the next line is identified from the same position; `PApart` carries this to the document's events (`SpecApart.after_block`) by following both event lists |
| C45 | `PropsOpen` | `SpecOpen.opener` lists the lines that begin a block other than a paragraph; `POpen.identify_rest` inverts `identify`: what its result says of the rest of the line, and that it is no paragraph for an `opener` (`opener_no_para`, one lemma per recogniser, incl. completeness of the attribute validator via `PAttr`); carried through the tree grammar (`PGram.opened`) to the events (`SpecMark.begins`, part of `C40_marked`) |
| C46 | `PropsSink` | `Sink.v`: the renderer in a monad with an abstract writer; `PSink.emits`: such a computation feeds a list of pieces whose concatenation is the text of the corresponding function of `Html.v` and stops at the first one refused (a lemma per function, composed by `emits_bind`); `SpecSink.receives`/`keeps` say what a writer receives and keeps |
| C47 | `PropsCli` | `Cli.cli_run` with `write_events` of `Sink.v`; for the buffered output the invariant is that what the device took and what is in the buffer together are what `write_all` was given (`write_log`), carried over the pieces of `SpecSink.receives`; `SpecCli.device`/`html_for` say what a device is and what should be written |
| C39 C35 | `PropsSrc` | the automaton of inline events carries the text at each range (delimiters, destinations, attribute sets, over several lines), from the lexer's tokens through the parser's buffer to the public events |
| C42 C35 | `PropsCover` | every function of the tree parser hands over each position of its lines to events or to the list of what is passed over (`PCov0`–`PCov4`); the inline parser has a cursor before which all is in the range of an event emitted or buffered (`PCov5`–`PCov9`); the document layer keeps every range (`PCov10`) |

Properties only partly covered and why are listed in `MANIFEST.json` (status `partial`), with the missing part in the note.

## 5. Findings (statements that are false of jotdown)

* C34: a heading marker of 65536 or more `#` panics; likewise a list inside 65535 containers (C01's second exception).
* C12: the pre-pass does not clear pending block attributes after a heading or a link definition, so an id can leak to a
  later heading (`C12_automatic_refuted`); C13: likewise for definition attributes (`C13_attributes_refuted`).
* C19: `{:?}` of attributes does not round-trip if a value ends in an odd number of backslashes.
* C20: an escaped line break in a quoted value drops the text before it.
* C38: an escape directly after a verbatim span is not an escape (`C38_escape_refuted`).
* C29: the first line of an indented div keeps its indentation (block.rs:589), so a code fence on it counts as deeper than it is
  and too much indentation is taken off its lines (`C29_first_refuted`).
* C39: after a failed footnote reference a link swallows the `^` (`C39_bracket_refuted`); an unclosed `{'` is reported as a
  right quote (`C39_quote_refuted`); `` $`a`{=html} `` loses the dollar sign (`C39_raw_refuted`); in verbatim text a
  backslash escapes a backtick after the first line break (`C39_content_refuted`).
* C39, C13: an attribute set in a destination or label that takes several lines is repeated: `[a](b{.x}⏎c)` has the
  destination `b{.x}{.x}c` (`C39_destination_refuted`, `C13_label_refuted`).
* C28: the first marker of an ordered list need not denote its start number: `iiiii.` (five) before `w.` makes a list that
  starts with the letter v (`C28_number_refuted`).
* C45: a bullet directly before a line break is not an opener (`C45_bullet_refuted`: `-⏎b` is a paragraph, though `-` at the end of the document is a list item), nor is a line of several attribute sets (`C45_sets_refuted`).
* C47: the command can report success although nothing was written (`C47_success_refuted`): the `BufWriter` around the standard output is dropped
  without a flush, so that an error when the last (up to 8192) bytes are written is lost (`jotdown doc.dj > /dev/full`)
* C44: ordered lists are excepted because `i. a⏎v. b⏎w. c⏎i. d` gives two adjacent lists of the same kind and start (`C44_ordered_refuted`); attributes in between
  separate blocks that would otherwise be one (`C44_attributes_refuted`).
* C43: the converse fails: a blank line within an item leaves a list tight in `- a⏎⏎  b` (`C43_converse_refuted`), though the same list
  inside a block quote or followed by further items is loose.
* C41: the own class of math spans and task lists is glued to a written one: `class="amath inline"` (`C41_class_refuted`).
* C42: the text of a table row from an unclosed run of backticks on is lost (`C42_backtick_refuted`).
* C30: inside image alternative text, raw inline text of any format is written (escaped).

## 6. Tests against wrong programs

`seeded/LOG.jsonl` records each seeded bug: the definition edited, the edit, the claim broken, the theorems that
failed to build, the theorems tightened as a consequence. The edits are made in a scratch copy by a script, which
rebuilds with `make -k` and collects the first failing lemma of each file and every theorem depending on it.
