{"id": "C01", "title": "Parsing never panics", "statement": "For every UTF-8 document, Parser::new(src) returns and every subsequent next() returns, with two exceptions at which an integer conversion panics: a heading marker of 65536 or more '#' (the level is a u16), and a list inside 65535 open containers (the depth is a u16; impossible in documents of up to 32766 bytes). No slice, index, unwrap, expect, arithmetic-underflow or debug assertion panic is reachable.", "quantifier": "every document (finite byte string that is valid UTF-8) and every call of next()", "why_tests_cant": "There are infinitely many documents; the panic sites are guarded only by cross-module invariants (openers point at placeholders, attribute validator and attribute parser agree, ...), which tests sample but never exhaust.", "anchors": ["src/lib.rs:Parser::new", "src/lib.rs:Parser::next_span", "src/block.rs:TreeParser", "src/inline.rs:Parser", "src/attr.rs:State::step"]}
{"id": "C02", "title": "Parsing terminates", "statement": "For every document the event iterator yields finitely many events and then None: no document makes Parser::new or next() loop forever.", "quantifier": "every document", "why_tests_cant": "Non-termination is an absence of behaviour; no finite run of a test shows that every input stops.", "anchors": ["src/block.rs:TreeParser::parse_block", "src/inline.rs:Parser::next", "src/lib.rs:Parser::block"]}
{"id": "C03", "title": "Start and End events are properly nested and paired", "statement": "For every document, reading the events left to right with a stack, every End(c) closes the most recently opened Start(c', _) and c = c' (same container with the same fields), and at the end nothing is left open.", "quantifier": "every document", "why_tests_cant": "Nesting of inline containers depends on arbitrarily long interleavings of openers and closers that are rewritten in place; tests only cover a few interleavings.", "anchors": ["src/lib.rs:Event::Start", "src/inline.rs:Parser::parse_container", "src/block.rs:TreeParser::exit"]}
{"id": "C04", "title": "The document container wraps everything", "statement": "For every document the first event is Start(Document), the last is End(Document), and Document appears nowhere else.", "quantifier": "every document", "why_tests_cant": "Universal over documents.", "anchors": ["src/block.rs:TreeParser::parse", "src/lib.rs:Container::Document"]}
{"id": "C05", "title": "Event ranges are valid ranges of the source", "statement": "For every document, every (event, range) from into_offset_iter satisfies range.start <= range.end <= src.len().", "quantifier": "every document, every event", "why_tests_cant": "Ranges are computed by pointer arithmetic and in-place span edits over unbounded inputs.", "anchors": ["src/lib.rs:Parser::into_offset_iter", "src/inline.rs:Event", "src/block.rs:Event"]}
{"id": "C06", "title": "Event ranges are ordered", "statement": "For every document, apart from table captions, the start of each event's range is at or after the end of the range of every earlier event (documented in into_offset_iter).", "quantifier": "every document, every pair of events", "why_tests_cant": "Quantifies over all pairs of events of all documents; the fuzzer in tests/afl only samples.", "anchors": ["src/lib.rs:Parser::into_offset_iter", "tests/afl/src/lib.rs"]}
{"id": "C07", "title": "Event ranges never split a character", "statement": "For every valid UTF-8 document, both ends of every event range are character boundaries, so slicing the source with a reported range cannot panic.", "quantifier": "every valid UTF-8 document, every event", "why_tests_cant": "Multi-byte text can be adjacent to any delimiter in infinitely many ways.", "anchors": ["src/lib.rs:OffsetIter", "src/inline.rs:Input"]}
{"id": "C08", "title": "No empty text events", "statement": "For every document, no Str event has an empty string.", "quantifier": "every document", "why_tests_cant": "CHANGELOG 0.10 promises 'never emit empty Str events'; this is a for-all claim.", "anchors": ["src/inline.rs:Parser::next", "src/lib.rs:Parser::block"]}
{"id": "C09", "title": "Text events are exactly the source text of their range", "statement": "For every document, the payload of a Str event equals the source slice at the range reported with it.", "quantifier": "every document, every Str event", "why_tests_cant": "For-all claim over documents.", "anchors": ["src/lib.rs:Parser::inline", "src/lib.rs:Parser::block"]}
{"id": "C10", "title": "Containment grammar", "statement": "For every document: list items occur only directly inside a list of the matching kind, table rows and captions only directly inside a table, table cells only directly inside a table row, description terms/details only directly inside a description list; block events never occur inside a leaf block (paragraph, heading, cell, caption, term, code block, raw block, link definition); inline events and text occur only inside a leaf block.", "quantifier": "every document", "why_tests_cant": "Depends on arbitrary nesting of blocks.", "anchors": ["src/block.rs:TreeParser::parse_container", "src/block.rs:TreeParser::parse_table", "src/lib.rs:Container"]}
{"id": "C11", "title": "Automatic heading ids are unique", "statement": "For every document, the automatically generated ids of two different headings differ, and none is empty.", "quantifier": "every document, every pair of headings", "why_tests_cant": "The de-duplication loop must terminate and be collision-free for every multiset of heading texts, including texts that look like suffixed ids.", "anchors": ["src/lib.rs:PrePass::new"]}
{"id": "C12", "title": "Section and heading ids agree", "statement": "For every document of at most 4 GiB, a Section's id equals the id of the heading that opens it; if an id attribute is attached to the section (or sectionless heading), that is its id; otherwise its id is the automatic one of that heading or (a defect of jotdown, exhibited as C12_automatic_refuted) an id attached to some other element. If the document attaches no id at all, all these ids are different and non-empty.", "quantifier": "every UTF-8 document of at most 2^32 bytes, every section and every heading outside sections", "why_tests_cant": "For-all claim; the lookup is a binary search keyed on truncated u32 offsets.", "anchors": ["src/lib.rs:PrePass::heading_id_by_location", "src/lib.rs:Container::Section"]}
{"id": "C13", "title": "Reference links resolve to the last definition, then to headings", "statement": "For every document of at most 4 GiB, a reference label resolves to the URL and attributes of the last link definition with exactly that label (its attributes may be preceded by those of an earlier definition: a defect, C13_attributes_refuted), else to '#'+id of a heading whose text is exactly the label, and is Unresolved, with the label as destination, only if neither exists; every reference link and image event of the document is such a resolution, followed by the attributes attached to it; its label is the text in the second brackets (if it takes one line: with line breaks the natural claim is false, C13_label_refuted), or, if they are empty, the text of the link: what the events inside it print.", "quantifier": "every list of definitions, headings and labels; every UTF-8 document of at most 2^32 bytes", "why_tests_cant": "The heading lookup is a binary search over a sorted permutation; correctness needs sortedness for every heading list.", "anchors": ["src/lib.rs:PrePass::heading_id_by_tag", "src/lib.rs:Parser::inline"]}
{"id": "C14", "title": "Sections nest by heading level", "statement": "For every document, each section contains as direct or indirect subsections only sections of strictly greater heading level, and a new heading closes exactly the open sections of the same or deeper level.", "quantifier": "every document", "why_tests_cant": "Section stack invariant over arbitrary heading sequences.", "anchors": ["src/block.rs:TreeParser::parse_leaf", "src/lib.rs:Container::Section"]}
{"id": "C15", "title": "Attribute parsing accepts exactly the attribute syntax", "statement": "Attributes::try_from(s) succeeds iff s, with trailing ASCII whitespace removed, is a non-empty concatenation of attribute sets; on failure the reported position is the first byte at which no continuation is valid (or the end of the input if it is a proper prefix).", "quantifier": "every string", "why_tests_cant": "The set of strings is infinite.", "anchors": ["src/attr.rs:Attributes::try_from", "src/attr.rs:Parser::parse", "src/attr.rs:State::step"]}
{"id": "C16", "title": "Attribute recognition does not depend on how the text is split into lines", "statement": "Feeding an attribute candidate to the recogniser line by line gives the same decision and the same end position as feeding the concatenated text, and whatever the recogniser accepts the attribute parser accepts, so the 'should be valid' expects cannot fail.", "quantifier": "every string and every way of splitting it", "why_tests_cant": "All strings times all splits.", "anchors": ["src/attr.rs:Validator::parse", "src/attr.rs:valid", "src/inline.rs:Parser::resume_attributes"]}
{"id": "C17", "title": "Attribute queries are coherent", "statement": "For every attribute set: contains_key(k) iff some non-comment element has key k; unique_pairs yields each key once, in order of first appearance, with for class the space-joined non-empty class values in order and for other keys the last value; get_value(k) agrees with unique_pairs (for class: None iff the joined value is empty).", "quantifier": "every attribute set and every key", "why_tests_cant": "All lists of elements.", "anchors": ["src/attr.rs:Attributes::get_value", "src/attr.rs:Attributes::unique_pairs", "src/attr.rs:Attributes::contains_key"]}
{"id": "C18", "title": "Attribute values display with escapes removed", "statement": "For every raw value, the concatenation of AttributeValue::parts() (= Display) is the raw value with each backslash that precedes an ASCII punctuation character removed (left to right, an escaped backslash not escaping again) and nothing else changed.", "quantifier": "every raw value", "why_tests_cant": "All strings.", "anchors": ["src/attr.rs:AttributeValueParts::next"]}
{"id": "C19", "title": "Attributes survive a print/parse round trip", "statement": "Formatting a parsed attribute set with {:?} and parsing the result with try_from gives the same attribute set back, unless some pair's value ends in an odd number of backslashes (such values exist and then the round trip can fail, a defect of jotdown exhibited as C19_roundtrip_refuted).", "quantifier": "every attribute set produced by parsing", "why_tests_cant": "All attribute sets.", "anchors": ["src/attr.rs:Attributes::fmt", "src/attr.rs:Attributes::try_from"]}
{"id": "C20", "title": "Quoted attribute values keep their text", "statement": "The value of key=\"...\" parsed by Attributes::try_from is the text between the quotes, with its non-empty lines joined by single spaces and no text lost; only if the first line ends in an unescaped backslash is that line dropped (a defect of jotdown, exhibited as C20_text_lost_refuted).", "quantifier": "every quoted value", "why_tests_cant": "All strings.", "anchors": ["src/attr.rs:Parser::parse", "src/attr.rs:State::step"]}
{"id": "C21", "title": "Smart punctuation preserves the run length", "statement": "A run of n >= 2 hyphens that is not part of other syntax yields em and en dashes whose source lengths sum to n (all em if 3|n, else all en if 2|n, else the fewest en dashes); a run of n periods yields n/3 ellipses followed by n mod 3 literal periods.", "quantifier": "every run length n", "why_tests_cant": "All n.", "anchors": ["src/inline.rs:Parser::parse_atom"]}
{"id": "C22", "title": "HTML text is inert", "statement": "For every string, rendering it as text or as an attribute value emits no '<', '>' or bare '&' (and no '\"' in attributes) from the string, and decoding the entities gives the string back.", "quantifier": "every string", "why_tests_cant": "All strings.", "anchors": ["src/html.rs:write_escape"]}
{"id": "C23", "title": "Rendered HTML is well-formed", "statement": "For every properly nested event sequence whose names (attribute keys, div classes, symbols) are as the parser produces them and that contains no raw HTML, the rendered output is a sequence of text, complete tags with quoted attributes and properly nested, matching open/close tags.", "quantifier": "every such event sequence (in particular the events of every document without raw HTML)", "why_tests_cant": "Nested structures and footnotes of unbounded size; paragraph closing in the footnote section is deferred.", "anchors": ["src/html.rs:Renderer::render_event", "src/html.rs:Renderer::render_epilogue"]}
{"id": "C24", "title": "Footnotes are numbered by first reference", "statement": "For every event sequence, the number printed for a footnote reference depends only on its label, numbers are 1..n in order of first reference, and distinct labels get distinct numbers.", "quantifier": "every event sequence", "why_tests_cant": "All sequences.", "anchors": ["src/html.rs:Footnotes::reference"]}
{"id": "C25", "title": "Each referenced footnote is emitted exactly once, in order", "statement": "The endnotes section contains exactly one item for each referenced label (including labels first referenced inside other footnotes), in numeric order, and rendering the endnotes terminates even for circular references.", "quantifier": "every event sequence", "why_tests_cant": "All reference graphs, including cycles.", "anchors": ["src/html.rs:Renderer::render_epilogue", "src/html.rs:Footnotes::next"]}
{"id": "C26", "title": "Rendering event by event equals rendering in bulk", "statement": "push_events over a concatenation of event lists produces the same bytes as pushing the lists one after another, and output already written is never changed by later events.", "quantifier": "every split of every event sequence", "why_tests_cant": "All splits.", "anchors": ["src/lib.rs:Render::push_events", "src/html.rs:Renderer::push_event"]}
{"id": "C27", "title": "Indentation options change only whitespace between elements", "statement": "For every event sequence, the minified, default and indented outputs are the same apart from newlines and indentation strings inserted at element boundaries.", "quantifier": "every event sequence and indentation option", "why_tests_cant": "All sequences.", "anchors": ["src/html.rs:Renderer::block", "src/html.rs:Renderer::indent"]}
{"id": "C28", "title": "Ordered list numbers are computed without overflow", "statement": "For every list marker the parser accepts, the start number computation neither overflows nor underflows u64, decimal markers denote their decimal value, single letters their alphabet position.", "quantifier": "every accepted list marker", "why_tests_cant": "10^19 markers.", "anchors": ["src/lib.rs:OrderedListNumbering::parse_number", "src/block.rs:IdentifiedBlock::maybe_ordered_list_item"]}
{"id": "C29", "title": "Verbatim block content is taken literally", "statement": "The text of a code block or raw block is exactly the source lines between its fences (up to a closing fence or the end of the enclosing block), each from where the content of the enclosing quotes, list items, footnotes and divs begins in it, with at most the indentation of the opening fence removed, up to and including its line end; a raw block's last line has trailing blanks removed; empty lines at the end of the input yield no event. No inline syntax in it is interpreted: its events are only Str, each the source at its range.", "quantifier": "every document", "why_tests_cant": "All contents, indentations and nestings.", "anchors": ["src/block.rs:TreeParser::parse_leaf", "src/lib.rs:Parser::block"]}
{"id": "C30", "title": "Only explicitly raw HTML is emitted unescaped", "statement": "A Str payload reaches the output unescaped only inside RawBlock/RawInline with format html; inside raw containers of any other format it does not reach the output at all, except in the alternative text of an image, where raw text of every format, html included, is written escaped (C30_raw_in_image_refuted).", "quantifier": "every event sequence", "why_tests_cant": "All sequences.", "anchors": ["src/html.rs:Renderer::render_event"]}
{"id": "C31", "title": "Link definitions and footnote bodies leave no trace in place", "statement": "Events between Start(LinkDefinition) and its End produce no output; events between Start(Footnote) and its End produce no output at that point.", "quantifier": "every event sequence", "why_tests_cant": "All sequences.", "anchors": ["src/html.rs:Renderer::render_event"]}
{"id": "C32", "title": "Each line belongs to one block", "statement": "Splitting a document into lines loses nothing (the lines concatenate to the source, each non-empty and with a newline only at its end). Every block that is made of lines (paragraph, heading, link or footnote definition, code or raw block, quote, div, list item, table) consumes at least one line up to its end: the range of its end event ends at the end of a line, after the place where the block began, and everything reported after it begins at or after that line end. A blank line's range reaches to the end of the line; after a thematic break the line holds only blanks. (Together with C42, which says that everything between events is blank or a marker, consecutive blocks consume consecutive lines.)", "quantifier": "every document", "why_tests_cant": "All documents.", "anchors": ["src/block.rs:lines", "src/block.rs:MeteredBlock::new", "src/block.rs:TreeParser::parse_block"]}
{"id": "C33", "title": "Table cells carry their column's alignment and their row's head flag", "statement": "For every document, TableCell.head equals the head flag of the enclosing TableRow, in both Start and End; a head row is followed in the source by a separator row (bars around hyphens with optional colons), the cells of the head row and of the rows after it have the alignments of that separator row's columns in order (cells beyond its columns have none), and before the first separator row no cell has an alignment.", "quantifier": "every document", "why_tests_cant": "All tables: any number of rows, separator rows and columns, nested in any containers.", "anchors": ["src/block.rs:TreeParser::parse_table", "src/lib.rs:Parser::block"]}
{"id": "C34", "title": "Size limits", "statement": "A heading with 65536 or more '#' makes Parser::new panic (level does not fit u16): the unconditional form of 'parsing never panics' is false, and this is a limit of that claim.", "quantifier": "every heading level", "why_tests_cant": "The boundary is outside any test; the claim is for all levels.", "anchors": ["src/block.rs:TreeParser::parse_block"]}
{"id": "C35", "title": "Inline attributes end up on exactly one element", "statement": "For every inline attribute set recognised in the text, the attributes are reported on exactly one event (a Start of the preceding container or word, or a standalone Attributes event), and none are dropped.", "quantifier": "every document", "why_tests_cant": "All documents.", "anchors": ["src/inline.rs:Parser::resume_attributes", "src/inline.rs:Parser::apply_word_attributes", "src/lib.rs:Parser::inline"]}
{"id": "C36", "title": "Tokens cover the line", "statement": "The inline scanner consumes each line completely: the source text of a paragraph line is partitioned into consecutive non-empty pieces, in order, without gaps or overlaps.", "quantifier": "every line", "why_tests_cant": "All strings.", "anchors": ["src/lex.rs:Lexer"]}
{"id": "C37", "title": "Rendering never fails on properly nested events", "statement": "For every event sequence whose Start/End events are properly nested and wrapped in a single Document, and for every indentation setting, the HTML renderer returns normally: no unwrap, index or slice panic is reachable, footnotes included.", "quantifier": "every properly nested event sequence and every indentation", "why_tests_cant": "All event sequences, including those made by user filters between parser and renderer.", "anchors": ["src/html.rs:Writer::render_event", "src/html.rs:Writer::render_epilogue"]}
{"id": "C38", "title": "Documents round-trip through the parser", "statement": "Take any document built from paragraphs (text, breaks, escapes, dashes, ellipses, emphasis and strong emphasis with or without braces, the other wrapped spans, verbatim, symbols, footnote references, autolinks, links, images), thematic breaks, fenced code, raw blocks, block quotes, and bullet, task and numbered lists, nested in any way, tight or loose; write it as Djot text; then Parser yields exactly the events of that document: nothing missing, nothing added, nothing reordered, the lists with the right type, start number and tightness, the code lines exact.", "quantifier": "every document tree of that grammar, of any size and nesting depth", "why_tests_cant": "Infinitely many trees; the interplay of nesting, indentation, blank lines and list continuation is where block parsers go wrong.", "anchors": ["src/lib.rs:Parser", "src/block.rs:TreeParser::parse_block", "src/inline.rs:Parser"]}
{"id": "C39", "title": "Event ranges hold the syntax of their events", "statement": "For every inline event of every document, the source text at its range is a way to write that event: the start and end of emphasis, links, verbatim, math, ... are their delimiters (the end of an inline link includes its destination and of raw inline its format), symbols, footnote references, quotes, dashes, ellipses, breaks and escapes are their characters, an attributes event is text in braces, and text is itself. Verbatim text, math and raw text end with as many backticks as they began with, or at the end of their block.", "quantifier": "every UTF-8 source text and every inline event of it", "why_tests_cant": "Delimiters are recognised, buffered, re-interpreted and merged with attribute sets that may span lines; a wrong range shows only for particular combinations.", "anchors": ["src/inline.rs:Parser", "src/lib.rs:OffsetIter"]}
{"id": "C40", "title": "Block markers stand in the ranges of their events", "statement": "For every block of every document, the range of its start event holds the block's attribute sets, if any, and then exactly the marker that makes the block: '#' repeated by the level for a heading, '>' for a quote, a fence of at least three characters with the reported language, format or class for code, raw blocks and divs, '[label]:' for link definitions and '[^label]:' for footnotes, ':' for description terms, nothing for paragraphs and lists; a list's range is directly followed by a marker of its kind, style and first number, every item carries a marker of its list's kind (a task item with the box that says whether it is checked). The range of the end event is empty or, for fenced blocks, a closing fence at least as long as the opening one, and no line of a code block is such a fence. Blank lines are blank and thematic breaks at least three asterisks or hyphens.", "quantifier": "every UTF-8 source text and every block event of it", "why_tests_cant": "Markers are recognised, stripped and re-read at every nesting depth, with list numbers re-interpreted when later items come; a wrong range or kind shows only for particular combinations.", "anchors": ["src/block.rs:IdentifiedBlock::new", "src/block.rs:Kind::continues", "src/block.rs:TreeParser::parse_block", "src/lib.rs:Parser::block"]}
{"id": "C41", "title": "The HTML of a document is the HTML of its events", "statement": "For every document, the minified page is exactly the concatenation of what each event stands for: the start tag of its element with its list number and style, link target, the attached attributes in order (values unescaped, then escaped for HTML), and its own id or class; text escaped; the symbols, quotes, dashes, line breaks and thematic breaks as given; end tags in the same way; no tags for paragraphs of tight lists, inside image descriptions, link definitions and raw blocks; followed by one numbered endnote per referenced footnote, in order of first reference, containing the HTML of its last definition and a link back in its last paragraph (or a new one). The default output is that page with line breaks inserted.", "quantifier": "every properly nested event sequence that keeps to the containment rules, in particular every parsed UTF-8 source", "why_tests_cant": "The renderer is a state machine over image depth, raw mode, list tightness, ignored definitions and a queue of footnotes that grows while it is written; any interleaving of nested containers can reach another combination.", "anchors": ["src/html.rs:Renderer::push_event", "src/html.rs:Renderer::render_event", "src/html.rs:Renderer::render_epilogue", "src/html.rs:write_class"]}
{"id": "C42", "title": "No text is lost", "statement": "Every byte of the source lies in the range of some event, except: white space, the repeated markers of block quotes and headings and the marker of a caption in the margin of a line, separator rows of tables, the braces of attribute sets that specify nothing, and the text of a table row after a run of backticks that the row does not close (a defect). In particular every letter, digit, non-ASCII character and most punctuation is accounted for by an event, whose range spells it (C39, C40).", "quantifier": "every UTF-8 source text and every position in it", "why_tests_cant": "Text passes through line splitting, container prefixes, trimming, tables, buffering, backtracking over attributes and merging of text events; a gap can open at any hand-over for some combination of constructs.", "anchors": ["src/lib.rs:OffsetIter", "src/block.rs:TreeParser", "src/inline.rs:Parser"]}
{"id": "C43", "title": "A loose list contains a blank line", "statement": "A list that is reported as loose (and whose paragraphs are therefore rendered with paragraph tags) has a blank line somewhere between its start and its end, and the range of that blank line's event is a line of white space only; a list without a blank line is reported as tight.", "quantifier": "every UTF-8 source text and every list event of its parse", "why_tests_cant": "The tightness of a list is one flag that is rewritten in place, at a distance, by flags that survive across lines, nested lists and enclosing blocks; a flag left over from an earlier list or block makes an unrelated list loose for some sequence of blocks only.", "anchors": ["src/block.rs:TreeParser::parse_block", "src/block.rs:TreeParser::close_list", "src/block.rs:TreeParser::parse_list"]}
{"id": "C44", "title": "Consecutive blocks are separated as the syntax says", "statement": "What comes directly after the end of a block is something that may stand there: after a paragraph a blank line, or the end of the block that contains it; after a heading neither a paragraph nor a heading of the same level, after a block quote neither a paragraph nor a block quote, after a table no table, after a bullet, task or definition list no list of the same kind (lines of the same kind would have continued the block) - unless attributes stand in between. Sections without attributes are not looked at.", "quantifier": "every UTF-8 source text and every block in its parse", "why_tests_cant": "Where a block ends is decided line by line by a continuation rule per kind, after prefixes of all enclosing containers have been taken off; a wrong boundary splits a block in two only for some combination of nesting, indentation and following line.", "anchors": ["src/block.rs:Kind::continues", "src/block.rs:TreeParser::parse_block", "src/block.rs:ListType::continues"]}
{"id": "C45", "title": "What looks like a block start is one", "statement": "The first line of a paragraph begins (after its indentation) with a character that is no blank and does not have the syntax of another block: it is no block quote, heading, thematic break, list item (bullet, any style of number, definition), code fence, div fence, link or footnote definition, table row or line of one attribute set. Conversely a block quote's, heading's or definition's marker is followed by white space or the end of the line; a list item's marker too, its line is no thematic break and an item of a plain bullet list does not start with a check box; a table's first line is a table row.", "quantifier": "every UTF-8 source text and every block of its parse", "why_tests_cant": "Which block a line begins is decided by a cascade of recognisers that share first characters (dashes, stars, colons, digits and letters); a recogniser that is too narrow or shadowed by an earlier one turns some line into text, and no finite set of lines covers all numbers, fences and attribute sets.", "anchors": ["src/block.rs:IdentifiedBlock::new", "src/block.rs:IdentifiedBlock::maybe_ordered_list_item", "src/block.rs:is_thematic_break"]}
{"id": "C46", "title": "A writer that fails gets a prefix and its error is reported", "statement": "Rendering events to a writer that may fail (a text buffer or a byte stream) gives it the HTML piece by piece, in order, and stops at the first piece that it does not accept: what the writer keeps is a beginning of the complete HTML, and nothing is written after the failure. The call fails exactly if some write failed, and for byte streams it returns the very error of the write that failed, never one of the renderer's own. If no write fails, the writer has all of the HTML.", "quantifier": "every writer (any state, failing at any point and with any error), every sequence of events that can be rendered with any renderer settings and state, and every UTF-8 document of up to 32766 bytes", "why_tests_cant": "A failure can occur at each of the many small writes of each document, and a write whose result is ignored shows only if the failure happens just there.", "anchors": ["src/lib.rs:Render::push_event", "src/lib.rs:Render::write_event", "src/lib.rs:Render::push_events", "src/lib.rs:Render::write_events", "src/lib.rs:WriteAdapter", "src/html.rs:Renderer::render_event", "src/html.rs:Renderer::render_epilogue", "src/html.rs:write_escape"]}
{"id": "C47", "title": "The command writes the HTML or reports an error", "statement": "The command renders its input with the renderer its options ask for; without options the output is that of html::render_to_string. If the input cannot be read or the output file cannot be created, nothing is written and that error is reported. Written to a file, the file gets a beginning of the HTML: all of it if the command succeeds, and otherwise the error reported is that of the write that failed. Written to the standard output, it gets a beginning of the HTML: all of it, with success, if no write fails; on a reported error a write failed with it; on success no more is missing than the output buffer holds.", "quantifier": "every combination of options, every input, every result of reading and creating files, every output device (failing at any write, after any number of bytes) and every buffer capacity", "why_tests_cant": "Devices fail at arbitrary points of arbitrary documents; a lost error shows only if the failure falls into the right write, for a buffered stream the last one.", "anchors": ["src/main.rs:run", "src/main.rs:main", "src/lib.rs:Render::write_events", "src/html.rs:Renderer::indented", "src/html.rs:Renderer::minified"]}
