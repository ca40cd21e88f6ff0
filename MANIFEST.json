{
 "claims": [
  {
   "property": "C01",
   "status": "proved",
   "theorems": [
    "C01_no_panic",
    "C01_small"
   ],
   "note": "Every UTF-8 document either parses or panics at one of two u16 conversions (block.rs:428 heading level, block.rs:630 list depth), under the stated necessary conditions on the source."
  },
  {
   "property": "C02",
   "status": "proved",
   "theorems": [
    "C02_terminates"
   ],
   "note": ""
  },
  {
   "property": "C03",
   "status": "proved",
   "theorems": [
    "C03_nesting"
   ],
   "note": ""
  },
  {
   "property": "C04",
   "status": "proved",
   "theorems": [
    "C04_document",
    "C04_renderable"
   ],
   "note": ""
  },
  {
   "property": "C05",
   "status": "proved",
   "theorems": [
    "C05_ranges_valid"
   ],
   "note": ""
  },
  {
   "property": "C06",
   "status": "proved",
   "theorems": [
    "C06_ranges_ordered",
    "C06_caption_ordered"
   ],
   "note": ""
  },
  {
   "property": "C07",
   "status": "proved",
   "theorems": [
    "C07_character_boundaries"
   ],
   "note": ""
  },
  {
   "property": "C08",
   "status": "proved",
   "theorems": [
    "C08_no_empty_text"
   ],
   "note": ""
  },
  {
   "property": "C09",
   "status": "proved",
   "theorems": [
    "C09_text_is_source"
   ],
   "note": ""
  },
  {
   "property": "C10",
   "status": "proved",
   "theorems": [
    "C10_containment",
    "C10_directly_inside"
   ],
   "note": ""
  },
  {
   "property": "C11",
   "status": "proved",
   "theorems": [
    "C11_fresh",
    "C11_unique"
   ],
   "note": ""
  },
  {
   "property": "C12",
   "status": "proved",
   "theorems": [
    "C12_ids",
    "C12_section_heading",
    "C12_automatic",
    "C12_automatic_refuted"
   ],
   "note": "id_ok relates the n-th section or sectionless heading of the events to the n-th heading found before parsing; the defect that an earlier id leaks is shown by C12_automatic_refuted."
  },
  {
   "property": "C13",
   "status": "proved",
   "theorems": [
    "C13_resolve",
    "C13_references",
    "C13_labels",
    "C13_attributes_refuted",
    "C13_label_refuted"
   ],
   "note": "Resolution proved for every list of definitions and headings; every reference link or image of a document is the resolution, against the definitions and headings of its events, of a label that is the text in its second brackets if that is on one line, or the text of the link or image (plain_text of its events) if they are empty. If the second brackets hold a line break the label is not determined by C13_labels: the natural claim is false (C13_label_refuted)."
  },
  {
   "property": "C14",
   "status": "proved",
   "theorems": [
    "C14_sections"
   ],
   "note": ""
  },
  {
   "property": "C15",
   "status": "proved",
   "theorems": [
    "C15_try_from_exact"
   ],
   "note": "Grammar in SpecAttr.v; exact acceptance, denotation and error position for every UTF-8 string."
  },
  {
   "property": "C16",
   "status": "proved",
   "theorems": [
    "C16_split_independent",
    "C16_recogniser_exact",
    "C16_valid_agrees",
    "C16_accepted_parses"
   ],
   "note": ""
  },
  {
   "property": "C17",
   "status": "proved",
   "theorems": [
    "C17_contains_key",
    "C17_unique_pairs",
    "C17_get_value"
   ],
   "note": ""
  },
  {
   "property": "C18",
   "status": "proved",
   "theorems": [
    "C18_display"
   ],
   "note": ""
  },
  {
   "property": "C19",
   "status": "proved",
   "theorems": [
    "C19_debug_roundtrip",
    "C19_roundtrip_refuted"
   ],
   "note": "For every parsed attribute set none of whose pair values ends in an odd number of backslashes; the unconditional claim is false (refuted)."
  },
  {
   "property": "C20",
   "status": "proved",
   "theorems": [
    "C20_quoted_value",
    "C20_escaped_break",
    "C20_text_lost_refuted"
   ],
   "note": "Both cases are exact: without and with a backslash before the first line break."
  },
  {
   "property": "C21",
   "status": "proved",
   "theorems": [
    "C21_dash_counts",
    "C21_hyphens",
    "C21_periods",
    "C21_public"
   ],
   "note": "The step of the inline parser on a hyphen or period token, for every state outside verbatim text."
  },
  {
   "property": "C22",
   "status": "proved",
   "theorems": [
    "C22_text_inert",
    "C22_attribute_inert",
    "C22_attribute_value"
   ],
   "note": ""
  },
  {
   "property": "C23",
   "status": "proved",
   "theorems": [
    "C23_well_formed",
    "C23_document",
    "C23_no_raw",
    "C23_names"
   ],
   "note": "For every nested event sequence that keeps to the containment rules, with names made of name characters and without raw HTML, and every indentation; and for every source without the text =html."
  },
  {
   "property": "C24",
   "status": "proved",
   "theorems": [
    "C24_numbers",
    "C24_distinct",
    "C24_first_order"
   ],
   "note": ""
  },
  {
   "property": "C25",
   "status": "proved",
   "theorems": [
    "C25_terminates",
    "C25_order_unique",
    "C25_endnotes"
   ],
   "note": ""
  },
  {
   "property": "C26",
   "status": "proved",
   "theorems": [
    "C26_composition",
    "C26_prefix",
    "C26_one_by_one"
   ],
   "note": ""
  },
  {
   "property": "C27",
   "status": "proved",
   "theorems": [
    "C27_layout"
   ],
   "note": "Whitespace positions inside the endnotes section are constrained only to element boundaries of some note event list."
  },
  {
   "property": "C28",
   "status": "proved",
   "theorems": [
    "C28_marker",
    "C28_number",
    "C28_continues",
    "C28_continues_exact",
    "C28_start",
    "C28_number_refuted"
   ],
   "note": "C28_start is about whole documents."
  },
  {
   "property": "C29",
   "status": "proved",
   "theorems": [
    "C29_only_text",
    "C29_fenced",
    "C29_lines",
    "C29_first_refuted"
   ],
   "note": "Only text events, each the source at its range (C09); no line is a closing fence, the end is one or the end of the enclosing block; the ranges are exactly the lines computed by SpecView.code_content in the view of the enclosing blocks. C29_first_refuted: in a div the first line keeps its indentation, so a fence there counts as deeper than it is."
  },
  {
   "property": "C30",
   "status": "proved",
   "theorems": [
    "C30_text_out",
    "C30_unescaped_only_raw_html",
    "C30_raw_other_hidden",
    "C30_raw_in_image",
    "C30_raw_in_image_refuted"
   ],
   "note": "text_out (SpecHtml.v) says what is written for a text event given the open containers; C30_text_out says the renderer writes that."
  },
  {
   "property": "C31",
   "status": "proved",
   "theorems": [
    "C31_definition",
    "C31_footnotes"
   ],
   "note": ""
  },
  {
   "property": "C32",
   "status": "proved",
   "theorems": [
    "C32_lines",
    "C32_blocks",
    "C32_single"
   ],
   "note": "Lines partition the source (C32_lines); every block made of lines ends at the end of a line after its beginning, and no later event begins before that (C32_blocks); blank lines and thematic breaks fill their lines (C32_single)."
  },
  {
   "property": "C33",
   "status": "proved",
   "theorems": [
    "C33_cell_head",
    "C33_alignment"
   ],
   "note": "With C03 for the end event. C33_alignment reads the events with their ranges against the table rules of SpecTable (columns)."
  },
  {
   "property": "C34",
   "status": "proved",
   "theorems": [
    "C34_heading_limit"
   ],
   "note": ""
  },
  {
   "property": "C35",
   "status": "proved",
   "theorems": [
    "C35_written",
    "C35_attached",
    "C35_one_range",
    "C35_block",
    "C35_none_dropped"
   ],
   "note": "Every attribute on an event is written in an attribute set of the source; an inline container has exactly the attributes of the sets between its closing delimiter and the end of the range of its end event (after those of its definition), and these ranges do not overlap (C08); a block has those of sets in the range of its start event. Conversely every opening brace is in the range of an event that accounts for it (attributes, delimiter or literal text), or belongs to an empty set or to an unclosed table row (defect of C42)."
  },
  {
   "property": "C36",
   "status": "proved",
   "theorems": [
    "C36_tokens_tile",
    "C36_tokens_exist"
   ],
   "note": ""
  },
  {
   "property": "C37",
   "status": "proved",
   "theorems": [
    "C37_render_total",
    "C37_html_total"
   ],
   "note": "For every nested event sequence and every indentation; and from the source to HTML for every document up to 32766 bytes (see C01)."
  },
  {
   "property": "C38",
   "status": "proved",
   "theorems": [
    "C38_events",
    "C38_small",
    "C38_unambiguous",
    "C38_escape_refuted"
   ],
   "note": "Trees, their text and their events are defined in SpecCanon.v, which does not mention the parser. Headings, tables, definition lists, divs, attributes, reference links and definitions are not in the grammar; lists that the parser mis-reports as tight and an escape directly after verbatim are excluded (C38_escape_refuted)."
  },
  {
   "property": "C39",
   "status": "proved",
   "theorems": [
    "C39_spelled",
    "C39_autolink",
    "C39_fences",
    "C39_bracket_refuted",
    "C39_quote_refuted",
    "C39_raw_refuted",
    "C39_destination_refuted",
    "C39_content_refuted"
   ],
   "note": "spelled (SpecSrc.v) gives the text of each kind of inline event; for block events it only constrains Attributes and Str. C39_fences: verbatim text, math and raw text end with as many backticks as they began with; that their text has no such run is only refuted, for text on several lines."
  },
  {
   "property": "C40",
   "status": "proved",
   "theorems": [
    "C40_marked",
    "C40_items",
    "C40_blank",
    "C40_break"
   ],
   "note": "marked, marks and item_mark are in SpecMark.v; for tables, captions, sections and the document only the attributes are constrained."
  },
  {
   "property": "C41",
   "status": "proved",
   "theorems": [
    "C41_page",
    "C41_document",
    "C41_default",
    "C41_class_refuted"
   ],
   "note": "page, event_html and the tables of elements and attributes are in SpecOut.v; C41_class_refuted shows that the class of math spans and task lists is glued to a written class."
  },
  {
   "property": "C42",
   "status": "proved",
   "theorems": [
    "C42_covered",
    "C42_text",
    "C42_backtick_refuted"
   ],
   "note": "covered and passed are in SpecCover.v; C42_text: letters, digits and most punctuation; C42_backtick_refuted: the defect with unclosed backticks in table rows is real."
  },
  {
   "property": "C43",
   "status": "proved",
   "theorems": [
    "C43_loose",
    "C43_tight",
    "C43_converse_refuted"
   ],
   "note": "C43_tight is the contrapositive in terms of the events alone; C43_converse_refuted: a blank line inside an item does not always make its list loose."
  },
  {
   "property": "C44",
   "status": "proved",
   "theorems": [
    "C44_apart",
    "C44_attributes_refuted",
    "C44_ordered_refuted"
   ],
   "note": "after_block and shown are in SpecApart.v; C44_ordered_refuted: two adjacent ordered lists of the same kind exist; C44_attributes_refuted: why attributes are excepted."
  },
  {
   "property": "C45",
   "status": "proved",
   "theorems": [
    "C45_begins",
    "C45_paragraph",
    "C45_item",
    "C45_bullet_refuted",
    "C45_sets_refuted"
   ],
   "note": "opener, item_rest and row_text are in SpecOpen.v, begins and begun in SpecMark.v; C45_openers shows ten concrete openers, C45_ex a document; the refuted theorems give two lines that are paragraphs though one would not expect it."
  },
  {
   "property": "C46",
   "status": "proved",
   "theorems": [
    "C46_pushed",
    "C46_written",
    "C46_kept",
    "C46_document",
    "C46_complete"
   ],
   "note": "receives and keeps are in SpecSink.v; C46_document and C46_complete combine the others for whole documents; the renderer's state after an error is not modelled."
  },
  {
   "property": "C47",
   "status": "proved",
   "theorems": [
    "C47_html",
    "C47_default",
    "C47_no_input",
    "C47_not_created",
    "C47_file",
    "C47_stdout",
    "C47_success_refuted"
   ],
   "note": "device and html_for are in SpecCli.v; C47_success_refuted: a success does not mean that the buffered standard output was written (the buffer is dropped, not flushed); BufWriter is modelled after the standard library, which is not in /repo."
  }
 ]
}