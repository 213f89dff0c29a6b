{
 "claims": [
  {
   "property": "C01",
   "status": "proved",
   "theorems": [
    "C01_never_an_error"
   ],
   "note": "For every input and every behaviour of the URI and date libraries; a panic (C02) is the only alternative to a page."
  },
  {
   "property": "C02",
   "status": "partial",
   "theorems": [
    "C02_refuted_link",
    "C02_refuted_diary",
    "C02_refuted_dedent",
    "C02_no_panic_partial",
    "C02_panic_sites_partial"
   ],
   "note": "False of the code: three witnesses (raw URL ended by markup, diary link with a space in its anchor, code block line cut inside a wide space). Proved: these are the only panic sites; UTF-8 pages without them are always parsed."
  },
  {
   "property": "C03",
   "status": "proved",
   "theorems": [
    "C03_terminates"
   ],
   "note": ""
  },
  {
   "property": "C04",
   "status": "proved",
   "theorems": [
    "C04_regions_in_bounds"
   ],
   "note": ""
  },
  {
   "property": "C05",
   "status": "partial",
   "theorems": [
    "C05_nested_partial",
    "C05_refuted"
   ],
   "note": "False for the pair and bundle nodes of definition lists (witness). Proved for everything else: nesting, order, no overlap."
  },
  {
   "property": "C06",
   "status": "proved",
   "theorems": [
    "C06_text_is_slice"
   ],
   "note": ""
  },
  {
   "property": "C07",
   "status": "proved",
   "theorems": [
    "C07_containers_tile",
    "C07_paragraph_lines_tile"
   ],
   "note": ""
  },
  {
   "property": "C08",
   "status": "partial",
   "theorems": [
    "C08_boundaries_partial",
    "C08_refuted"
   ],
   "note": "False for the end of the pair region of definition lists (witness). Proved for all other regions and all starts."
  },
  {
   "property": "C09",
   "status": "proved",
   "theorems": [
    "C09_block_parsers_forward",
    "C09_inline_parsers_forward"
   ],
   "note": "Parsers that begin in the middle of inline text need inline_start (what their callers establish)."
  },
  {
   "property": "C10",
   "status": "proved",
   "theorems": [
    "C10_line_column",
    "C10_unique"
   ],
   "note": ""
  },
  {
   "property": "C11",
   "status": "partial",
   "theorems": [
    "C11_end_partial",
    "C11_refuted"
   ],
   "note": "False unless the span starts the input (witness). Proved: exactly which position is reported."
  },
  {
   "property": "C12",
   "status": "partial",
   "theorems": [
    "C12_only_whitespace_partial",
    "C12_accepts_partial",
    "C12_refuted"
   ],
   "note": "False: the first byte is not looked at (witness). Proved: exact characterisation, and that whitespace is never rejected."
  },
  {
   "property": "C13",
   "status": "partial",
   "theorems": [
    "C13_take_line_until_partial",
    "C13_take_line_until_one_of_two",
    "C13_take_line_until_one_of_three",
    "C13_take_until_end_of_line",
    "C13_unique",
    "C13_take_until",
    "C13_refuted"
   ],
   "note": "take_line_until with a pattern of three bytes or more can cross a line ending (witness; the parsers only use one- and two-byte patterns, for which it is proved). The other variants are proved for all patterns."
  },
  {
   "property": "C14",
   "status": "proved",
   "theorems": [
    "C14_surround"
   ],
   "note": ""
  },
  {
   "property": "C15",
   "status": "proved",
   "theorems": [
    "C15_trim_whitespace",
    "C15_trimmed_unique",
    "C15_trim_trailing",
    "C15_trim_start"
   ],
   "note": ""
  },
  {
   "property": "C16",
   "status": "proved",
   "theorems": [
    "C16_beginning_of_line",
    "C16_blank_line",
    "C16_rest_of_line",
    "C16_any_line",
    "C16_next_line_unique"
   ],
   "note": ""
  },
  {
   "property": "C17",
   "status": "proved",
   "theorems": [
    "C17_headers"
   ],
   "note": ""
  },
  {
   "property": "C18",
   "status": "proved",
   "theorems": [
    "C18_dividers",
    "C18_divider"
   ],
   "note": "Page level and, in PropertiesSpan, the parser in both directions."
  },
  {
   "property": "C19",
   "status": "proved",
   "theorems": [
    "C19_list_positions"
   ],
   "note": ""
  },
  {
   "property": "C20",
   "status": "proved",
   "theorems": [
    "C20_item_content",
    "C20_uniform_type"
   ],
   "note": ""
  },
  {
   "property": "C21",
   "status": "proved",
   "theorems": [
    "C21_table_cells",
    "C21_table_source"
   ],
   "note": ""
  },
  {
   "property": "C22",
   "status": "proved",
   "theorems": [
    "C22_definitions",
    "C22_definitions_source"
   ],
   "note": ""
  },
  {
   "property": "C23",
   "status": "proved",
   "theorems": [
    "C23_code_verbatim",
    "C23_math_verbatim"
   ],
   "note": ""
  },
  {
   "property": "C24",
   "status": "proved",
   "theorems": [
    "C24_code_fence",
    "C24_math_fence"
   ],
   "note": ""
  },
  {
   "property": "C25",
   "status": "proved",
   "theorems": [
    "C25_blockquotes"
   ],
   "note": ""
  },
  {
   "property": "C26",
   "status": "partial",
   "theorems": [
    "C26_line_comment_partial",
    "C26_refuted",
    "C26_comment_verbatim"
   ],
   "note": "A line comment in a header, table cell or term ends with it (witness). Proved: it is the last element of its container or ends at a line break; content verbatim; multi line comments end at their first closing marker."
  },
  {
   "property": "C27",
   "status": "partial",
   "theorems": [
    "C27_refuted",
    "C27_code_partial",
    "C27_math"
   ],
   "note": "Inline code can begin with its delimiter (witness: three backticks). Proved: only there; all other parts hold; for math all parts hold."
  },
  {
   "property": "C28",
   "status": "proved",
   "theorems": [
    "C28_tags"
   ],
   "note": ""
  },
  {
   "property": "C29",
   "status": "proved",
   "theorems": [
    "C29_tables_are_maps",
    "C29_parsed_tables_are_maps",
    "C29_header_rows",
    "C29_body_rows",
    "C29_partition"
   ],
   "note": ""
  },
  {
   "property": "C30",
   "status": "partial",
   "theorems": [
    "C30_cells_partial",
    "C30_rows",
    "C30_refuted"
   ],
   "note": "False of Table::cells on ragged tables, which the parser produces (witness: `|a|` then `|b|c|` yields 1 of 3 cells). Proved: rectangular tables for cells; row by row iteration for all parsed tables."
  },
  {
   "property": "C31",
   "status": "partial",
   "theorems": [
    "C31_colspan",
    "C31_rowspan_partial",
    "C31_other_cells",
    "C31_rowspan_refuted"
   ],
   "note": "Column spans: all parsed tables. Row spans are 0 below a short row (witness); proved when every row above has the column."
  },
  {
   "property": "C32",
   "status": "proved",
   "theorems": [
    "C32_cell_position_text"
   ],
   "note": "For all positions below 2^64, that is for all values of the type."
  },
  {
   "property": "C33",
   "status": "partial",
   "theorems": [
    "C33_labels_partial",
    "C33_order_partial",
    "C33_no_gap_partial",
    "C33_refuted"
   ],
   "note": "False from position 2^32 on (32 bit truncation, witness). Proved below: letters only, order as in dictionaries by length, no label skipped."
  },
  {
   "property": "C34",
   "status": "proved",
   "theorems": [
    "C34_progress_range",
    "C34_progress_mean"
   ],
   "note": "Progress as exact rationals where the code uses f32."
  },
  {
   "property": "C35",
   "status": "partial",
   "theorems": [
    "C35_equal",
    "C35_strict",
    "C35_strict_implies_partial",
    "C35_strict_refuted",
    "C35_hash"
   ],
   "note": "Equality is exactly sameness of contents without regions, strict equality sameness of contents with regions, for every equality of URIs described by a normal form; equal elements hash alike if equal URIs do. \"Strict equality implies equality\" is proved when equal URIs are displayed alike or definition lists have no links, and refuted otherwise: definition list values compare by displayed text. The refutation assumes a URI equality that ignores the case of percent-encodings; whether uriparse has it could not be checked here."
  },
  {
   "property": "C36",
   "status": "proved",
   "theorems": [
    "C36_lookup",
    "C36_absent"
   ],
   "note": "Text of a term as a relation that ignores markup; the first such item is returned, and none if no term reads so."
  },
  {
   "property": "C37",
   "status": "partial",
   "theorems": [
    "C37_display",
    "C37_read",
    "C37_fragment_partial",
    "C37_fragment_refuted",
    "C37_encoded_refuted"
   ],
   "note": "Display form: all parts without '#'. URI fragment: parts without \"%23\"; false otherwise and for from_uri_fragment of the encoded form (witnesses)."
  },
  {
   "property": "C38",
   "status": "partial",
   "theorems": [
    "C38_encoding_partial",
    "C38_refuted",
    "C38_refuted_separator"
   ],
   "note": "False when the text contains a percent escape (witness: 100%41). Proved for all texts without one."
  },
  {
   "property": "C39",
   "status": "partial",
   "theorems": [
    "C39_unique_ids_partial",
    "C39_all_ids_partial",
    "C39_refuted_suffix",
    "C39_refuted_counter",
    "C39_refuted_property"
   ],
   "note": "False: number suffixes can collide with texts (witnesses a,a,a-1 and a,a,a-2,a) and links may carry an id property (witness). Proved: the ids are those handed out, one per request; distinct when no request equals another plus a small number."
  },
  {
   "property": "C40",
   "status": "partial",
   "theorems": [
    "C40_path_partial",
    "C40_refuted"
   ],
   "note": "False after a skipped level (witness a(1), c(3), b(1), d(4) gives b-c-d). Proved, on the output text, for headers at the top level of the page when no level is skipped."
  },
  {
   "property": "C41",
   "status": "partial",
   "theorems": [
    "C41_markup_partial",
    "C41_escape",
    "C41_refuted_language",
    "C41_refuted_metadata",
    "C41_refuted_environment",
    "C41_refuted_property",
    "C41_refuted_title"
   ],
   "note": "False for code language and metadata, math environment, property names, included comments and the title (witnesses). Proved for pages whose such parts have no markup: all tags and attribute names are the generator's or the page's own property names; texts and values contain no markup; escaping is reversible."
  },
  {
   "property": "C42",
   "status": "partial",
   "theorems": [
    "C42_nested_partial",
    "C42_refuted"
   ],
   "note": "Proved for pages whose unescaped parts have no markup characters (otherwise false, witness), without server side highlighting."
  },
  {
   "property": "C43",
   "status": "proved",
   "theorems": [
    "C43_content_verbatim",
    "C43_variables"
   ],
   "note": "Content: for every template and page. Variables: for templates of literal text and variables when no value but the content contains a percent sign."
  },
  {
   "property": "C44",
   "status": "partial",
   "theorems": [
    "C44_total",
    "C44_below_partial",
    "C44_refuted"
   ],
   "note": "Total for every input. Pages whose path below the wiki has no '..' go to the same place below the HTML directory; false with '..' (witness)."
  },
  {
   "property": "C45",
   "status": "proved",
   "theorems": [
    "C45_hops",
    "C45_outside",
    "C45_root_prefix"
   ],
   "note": "Also: the template variable root_path followed by a file name leads to that file at the site root."
  },
  {
   "property": "C46",
   "status": "proved",
   "theorems": [
    "C46_deepest",
    "C46_none"
   ],
   "note": "Chosen wiki contains the page and none that contains it is deeper; no wiki only if none contains it."
  },
  {
   "property": "C47",
   "status": "partial",
   "theorems": [
    "C47_relative_link_partial",
    "C47_refuted",
    "C47_refuted_directory"
   ],
   "note": "False when the target lies below a path equal to the source file, or is the directory of the source (witnesses). Proved otherwise, for names without escapes."
  },
  {
   "property": "C48",
   "status": "proved",
   "theorems": [
    "C48_resolves",
    "C48_idempotent",
    "C48_unchanged"
   ],
   "note": "Resolution as a rewriting relation; leading '..' of a relative path are dropped, which the relation states."
  },
  {
   "property": "C49",
   "status": "partial",
   "theorems": [
    "C49_wiki_link_partial",
    "C49_interwiki_link_partial",
    "C49_diary_link",
    "C49_transclusion_link",
    "C49_kept",
    "C49_missing",
    "C49_refuted_dotted_name",
    "C49_refuted_absolute",
    "C49_refuted_interwiki_dir"
   ],
   "note": "Links are followed like a browser does (escapes decoded). False for page names with a dot, absolute links that start with the wiki's own path, and directory links to another wiki (witnesses). Proved for the other wiki, interwiki, diary, transclusion, raw and remote links, including '..' inside the wiki and percent escapes."
  },
  {
   "property": "C50",
   "status": "partial",
   "theorems": [
    "C50_layout_partial",
    "C50_rectangular_partial",
    "C50_refuted"
   ],
   "note": "Exact layout of every printed table. Every content cell is shown when no row is short; with short rows text is lost (witness)."
  },
  {
   "property": "C51",
   "status": "partial",
   "theorems": [
    "C51_tables_partial",
    "C51_no_table",
    "C51_rectangular_partial",
    "C51_gaps_partial",
    "C51_blind_partial",
    "C51_refuted"
   ],
   "note": "A parsed page can be formatted exactly when each of its tables can; for tables without short rows the exact condition is given. False: the document |a|:-| panics (witness)."
  },
  {
   "property": "C52",
   "status": "partial",
   "theorems": [
    "C52_page_partial",
    "C52_quote_refuted",
    "C52_cell_refuted",
    "C52_item_refuted",
    "C52_letters_refuted"
   ],
   "note": "False in general: empty lines inside quotations, padding of table cells, code blocks at the start of list items and lettered lists of more than 78 items do not survive (witnesses). Proved for pages of headers, paragraphs, quotations, code and math blocks, dividers, placeholders, nested lists, definition lists and tables whose text is unambiguous, unless the parser panics, which needs one of the three sites of C02 in the printed text. Missing: comments over several lines, links described by a transclusion."
  },
  {
   "property": "C53",
   "status": "proved",
   "theorems": [
    "C53_operations",
    "C53_trimmed"
   ],
   "note": "For all sequences of operations of the formatter on UTF-8 texts; and exactly what and_trim leaves of the texts written inside it."
  },
  {
   "property": "C54",
   "status": "partial",
   "theorems": [
    "C54_selection_partial",
    "C54_names_partial",
    "C54_refuted"
   ],
   "note": "False when an index is listed: the list is applied again to the selected wikis with new positions (witness). Proved when the listed wikis are still listed at their new positions, in particular for names only."
  },
  {
   "property": "C55",
   "status": "proved",
   "theorems": [
    "C55_load",
    "C55_convert",
    "C55_reads_back",
    "C55_load_program"
   ],
   "note": "For all histories of edits outside the cache, complete runs and crashed runs (a write cut off anywhere). Hypotheses: no SHA-1 collision among the texts that occur; nothing else writes below the cache directory; a prefix of what is saved for a parsed page reads back as the page or not at all, which C55_reads_back proves of the program's own JSON encoding (given that uriparse's and chrono's encodings are read back)."
  },
  {
   "property": "C56",
   "status": "partial",
   "theorems": [
    "C56_unread_partial",
    "C56_actions_partial",
    "C56_refuted"
   ],
   "note": "False: pages are written into an existing cache directory (witness). Proved: the cache directory has no influence, nothing is deleted, and files are written only into an existing cache directory."
  },
  {
   "property": "C57",
   "status": "partial",
   "theorems": [
    "C57_exact",
    "C57_complete_partial",
    "C57_refuted"
   ],
   "note": "Exactly the files not named by a checksum of the loaded data are removed. The loaded data covers every page when every wiki is listed at its position; otherwise fresh cache files are removed (witness)."
  },
  {
   "property": "C58",
   "status": "partial",
   "theorems": [
    "C58_depth_partial",
    "C58_refuted"
   ],
   "note": "False for the pair nodes of definition lists, always depth 0 (witness). Proved for everything else."
  },
  {
   "property": "C59",
   "status": "proved",
   "theorems": [
    "C59_page_covered"
   ],
   "note": ""
  },
  {
   "property": "C60",
   "status": "partial",
   "theorems": [
    "C60_refuted",
    "C60_decorated_partial"
   ],
   "note": "False: inline code, math and tags inside decorated text are dropped with everything after them (witness). Proved: what is kept starts after the delimiter and has no gaps."
  },
  {
   "property": "C61",
   "status": "proved",
   "theorems": [
    "C61_placeholders"
   ],
   "note": ""
  },
  {
   "property": "C62",
   "status": "proved",
   "theorems": [
    "C62_links",
    "C62_keywords"
   ],
   "note": ""
  },
  {
   "property": "C63",
   "status": "proved",
   "theorems": [
    "C63_outputs_differ"
   ],
   "note": ""
  },
  {
   "property": "C64",
   "status": "partial",
   "theorems": [
    "C64_look_partial",
    "C64_stanzas"
   ],
   "note": "For pages whose unescaped parts have no markup characters, without server side highlighting; ids are C39, C40, C66."
  },
  {
   "property": "C65",
   "status": "proved",
   "theorems": [
    "C65_outcome",
    "C65_succeeds"
   ],
   "note": "All pages and configurations; syntect and uriparse as parameters."
  },
  {
   "property": "C66",
   "status": "partial",
   "theorems": [
    "C66_tag_path_partial",
    "C66_refuted"
   ],
   "note": "False: deeper headers of a previous section stay in the path (witness c-b-x). Proved for tags in a paragraph of their own when no level is skipped and the latest header is the deepest."
  },
  {
   "property": "C67",
   "status": "partial",
   "theorems": [
    "C67_anchor_partial",
    "C67_refuted_text",
    "C67_refuted_local"
   ],
   "note": "False for texts with capitals or blanks, and for links within the page that name enclosing headers (witnesses). Proved for anchors spelled like the ids."
  },
  {
   "property": "C68",
   "status": "proved",
   "theorems": [
    "C68_active",
    "C68_none"
   ],
   "note": "On the success of rendering; the wiki used when none is active is the page's directory."
  },
  {
   "property": "C69",
   "status": "partial",
   "theorems": [
    "C69_refuted"
   ],
   "note": "False: the placeholder is parsed but ignored by the HTML output (witness); the command line does not look at it either."
  },
  {
   "property": "C70",
   "status": "partial",
   "theorems": [
    "C70_values_partial",
    "C70_refuted"
   ],
   "note": "False for a title with a marker (witness). Proved when no value but the content contains a percent sign."
  },
  {
   "property": "C71",
   "status": "proved",
   "theorems": [
    "C71_prints",
    "C71_unchanged"
   ],
   "note": "All file systems, parsers, printers and failures."
  },
  {
   "property": "C72",
   "status": "proved",
   "theorems": [
    "C72_only",
    "C72_all",
    "C72_missing"
   ],
   "note": "canonicalize is a parameter that does not depend on the texts of files."
  },
  {
   "property": "C73",
   "status": "partial",
   "theorems": [
    "C73_others_partial",
    "C73_refuted"
   ],
   "note": "False for the document being written (witness: it is left empty). Proved for all others, at every crash point."
  },
  {
   "property": "C74",
   "status": "proved",
   "theorems": [
    "C74_outputs"
   ],
   "note": "When the output directories of the configured wikis and of the default wiki are outside the cache directory; same hypotheses as C55."
  },
  {
   "property": "C75",
   "status": "partial",
   "theorems": [
    "C75_parsed_pages",
    "C75_vimwiki",
    "C75_equal_partial",
    "C75_equal_refuted"
   ],
   "note": "Proved for pages with the same content (all of it, definition lists included) and for pages that are == without definition lists. False for == in general: terms and definitions compare by displayed text (witness: two links with the same description). Also: what the parser returns meets the conditions on pages used here and in C35."
  },
  {
   "property": "C76",
   "status": "partial",
   "theorems": [
    "C76_stable_partial",
    "C76_code_refuted",
    "C76_quote_refuted",
    "C76_link_refuted"
   ],
   "note": "Proved for the pages of C52 (page_fine). False in general: code that begins a list item moves right by four blanks each time, a quotation with an empty line falls apart, link targets are percent-decoded each time (witnesses)."
  },
  {
   "property": "C77",
   "status": "partial",
   "theorems": [
    "C77_html_partial",
    "C77_order_refuted"
   ],
   "note": "Proved for pages whose links and code blocks have at most one property or attribute. False otherwise: several attributes are written in the iteration order of a hash map (witness)."
  },
  {
   "property": "C78",
   "status": "partial",
   "theorems": [
    "C78_only_the_page",
    "C78_read_back_when",
    "C78_common_partial",
    "C78_not_read_back",
    "C78_refuted"
   ],
   "note": "Proved: no beginning of a saved page is read as another page; a saved page is read back exactly when it has no definition list and is nested at most 127 levels; in particular every page with undecorated text and up to 22 list levels. False for definition lists (the list of definitions cannot be flattened, so saving stops there) and for 25 or more list levels (serde_json's recursion limit). Hypotheses: uriparse's and chrono's encodings are read back. serde, serde_with and serde_json are modelled."
  },
  {
   "property": "C79",
   "status": "partial",
   "theorems": [
    "C79_answer_partial",
    "C79_shown_partial",
    "C79_fails",
    "C79_refuted"
   ],
   "note": "Proved when no loaded page has a definition list and the paths are UTF-8; the output is valid JSON. With a definition list on any loaded page inspect fails for every query (witness). jsonpath_lib is a parameter."
  },
  {
   "property": "C80",
   "status": "partial",
   "theorems": [
    "C80_raw",
    "C80_least",
    "C80_shared_partial",
    "C80_refuted",
    "C80_as_it_is_refuted",
    "C80_panic_refuted",
    "C80_blank"
   ],
   "note": "Proved: blank lines around the text are dropped, the least indentation of the lines between is taken from all of them (raw: nothing), a text of blank lines is refused. False: an empty line between two lines switches the removal off (witness: a header becomes centered); the raw macros do not use the literal as it is; lines indented with white space characters of different widths make the macro panic."
  },
  {
   "property": "C81",
   "status": "partial",
   "theorems": [
    "C81_forms",
    "C81_plain_partial",
    "C81_refuted"
   ],
   "note": "Proved: the form of the literal does not matter; literals without backslashes denote their text. False with escapes: they reach the parser as written (witness: one list item instead of two)."
  },
  {
   "property": "C82",
   "status": "partial",
   "theorems": [
    "C82_value",
    "C82_literal",
    "C82_equal",
    "C82_strict_refuted"
   ],
   "note": "Proved: the value is the parsed page with depths set to 0, hence == to it; hypothesis: uriparse reads back the URIs of the page as they are displayed. False for strict equality (depths). The generated token stream is modelled by its value."
  },
  {
   "property": "C83",
   "status": "partial",
   "theorems": [
    "C83_filled_partial",
    "C83_refuted"
   ],
   "note": "Proved for strings of placeholders and text without braces; specifications without references to other arguments. False for doubled braces (witness: does not compile). std::format! and the regular expression are modelled."
  },
  {
   "property": "C84",
   "status": "partial",
   "theorems": [
    "C84_frame",
    "C84_texts_partial"
   ],
   "note": "Proved: structure and places never depend on the arguments (keys of properties and attributes without braces); success and texts for pages whose texts are format strings as in C83. Texts of tables and attributes come in the order of the hash map, see C85."
  },
  {
   "property": "C85",
   "status": "partial",
   "theorems": [
    "C85_numbered_partial",
    "C85_refuted"
   ],
   "note": "Proved for numbered and named placeholders. False for empty placeholders in tables: the order of the hash map decides (witness)."
  },
  {
   "property": "C86",
   "status": "partial",
   "theorems": [
    "C86_all_visited",
    "C86_by_levels",
    "C86_order_partial",
    "C86_order_refuted"
   ],
   "note": "Proved: all elements visited, level by level; order of the text for pages without tables. False with tables: cells come in the order of the hash map (witness)."
  },
  {
   "property": "C87",
   "status": "proved",
   "theorems": [
    "C87_chain",
    "C87_one_block",
    "C87_contains"
   ],
   "note": ""
  },
  {
   "property": "C88",
   "status": "partial",
   "theorems": [
    "C88_range",
    "C88_range_to",
    "C88_inclusive_partial",
    "C88_inclusive_to_partial",
    "C88_inclusive_ok",
    "C88_refuted",
    "C88_overflow_refuted",
    "C88_empty"
   ],
   "note": "Proved below the largest usize. False there: inclusive ranges and contains overflow and panic (witnesses)."
  },
  {
   "property": "C89",
   "status": "partial",
   "theorems": [
    "C89_first_block",
    "C89_kind",
    "C89_block_is_first",
    "C89_other_languages",
    "C89_rest_refuted",
    "C89_empty_line_refuted",
    "C89_kind_refuted"
   ],
   "note": "Proved: the first block of a page starting at offset 0 is what the block parser and the parser of its kind give; conversely for texts beginning with a visible byte; Markdown and Mediawiki always fail. False: what follows the element is ignored, a leading empty line is an error, and a parser of one kind accepts what the page sees as another (witnesses)."
  },
  {
   "property": "C90",
   "status": "partial",
   "theorems": [
    "C90_number",
    "C90_name_partial",
    "C90_refuted"
   ],
   "note": "Proved for numbers and for names that are no numbers. False: a wiki whose name is a number cannot be selected by name."
  },
  {
   "property": "C91",
   "status": "partial",
   "theorems": [
    "C91_placeholder_refuted",
    "C91_every_date",
    "C91_diary_refuted",
    "C91_only_dates_partial"
   ],
   "note": "False for every date: placeholders are late by the length of their month (years 100 to 199999), diary links crash in January and on days the month before lacks, and are one month early otherwise."
  },
  {
   "property": "C92",
   "status": "partial",
   "theorems": [
    "C92_text_partial",
    "C92_refuted",
    "C92_error"
   ],
   "note": "Proved: kept as text exactly if it is no URI reference; a single word is one (witness). Only new_wiki_link is composed; the other constructors use the same description."
  },
  {
   "property": "C93",
   "status": "partial",
   "theorems": [
    "C93_matrix_partial",
    "C93_refuted"
   ],
   "note": "Proved for matrices of cells, also ragged. False if a row has entries that are no cells: later ones move left."
  },
  {
   "property": "C94",
   "status": "partial",
   "theorems": [
    "C94_multi_line",
    "C94_line_partial",
    "C94_refuted",
    "C94_defs_partial",
    "C94_defs_refuted"
   ],
   "note": "Proved: comments of several lines; a line comment keeps its text iff no white space is at its ends; the definitions of a term are run together (witness)."
  },
  {
   "property": "C95",
   "status": "partial",
   "theorems": [
    "C95_partial",
    "C95_refuted"
   ],
   "note": "Proved: to_js gives the value iff there is no definition list on the page, where it panics (witness)."
  },
  {
   "property": "C96",
   "status": "partial",
   "theorems": [
    "C96_safe_partial",
    "C96_taken_partial",
    "C96_twice_refuted",
    "C96_again_refuted"
   ],
   "note": "Proved: making a table is safe iff no object occurs twice and none was used before, the objects given are gone afterwards, others stay. False: a second use, in the same or a later table, is a use after free. How wasm-bindgen's from_abi takes ownership is modelled, see DESIGN.md."
  },
  {
   "property": "C97",
   "status": "partial",
   "theorems": [
    "C97_config",
    "C97_config_only",
    "C97_data",
    "C97_convert",
    "C97_serve_refuted"
   ],
   "note": "Proved for status 1 and 2, and for 0 of convert (what convert then has written: C74). False for serve: it ends at once with 0, having touched only the cache."
  },
  {
   "property": "C98",
   "status": "proved",
   "theorems": [
    "C98_line_ends",
    "C98_windows",
    "C98_formatted",
    "C98_html"
   ],
   "note": "Proved by running the parsers on both texts side by side. Carriage returns elsewhere are ordinary characters (example). HTML with several attributes: see C77."
  },
  {
   "property": "C99",
   "status": "proved",
   "theorems": [
    "C99_resume",
    "C99_before",
    "C99_blank",
    "C99_formatted",
    "C99_html"
   ],
   "note": "Proved by running the parsers in the middle of a text and on its rest side by side. A beginning that does not let a block begin (an unfinished paragraph or list) changes what follows (example). HTML with several attributes: see C77."
  },
  {
   "property": "C100",
   "status": "proved",
   "theorems": [
    "C100_final_newline",
    "C100_windows",
    "C100_formatted",
    "C100_html"
   ],
   "note": "Proved by running the parsers on both texts side by side. After a carriage return the newline is part of a line end (example). HTML with several attributes: see C77."
  },
  {
   "property": "C101",
   "status": "partial",
   "theorems": [
    "C101_table",
    "C101_threads",
    "C101_report",
    "C101_report_exists",
    "C101_units",
    "C101_runs_refuted",
    "C101_runs_partial"
   ],
   "note": "False for a process that runs the program twice: loading that fails returns without switching the timekeeper off or clearing its table, so the next report has these calls too and a run without the option records (C101_runs_refuted). Proved when every earlier run with the option got past loading; table, report, order and units are proved without conditions. Floating point averages and display are parameters."
  },
  {
   "property": "C102",
   "status": "partial",
   "theorems": [
    "C102_text",
    "C102_lines",
    "C102_furthest_refuted",
    "C102_furthest_partial",
    "C102_last"
   ],
   "note": "The text is proved. The claim about alternatives is false: `or` compares the places of the outermost errors, and a context moves that to its beginning, so of alternatives with contexts the last one is shown (C102_furthest_refuted, C102_last). Proved for errors that name no later place behind the outermost. Which errors the parsers build is not modelled."
  },
  {
   "property": "C103",
   "status": "partial",
   "theorems": [
    "C103_given_refuted",
    "C103_given_partial",
    "C103_strings",
    "C103_agree"
   ],
   "note": "False for names with lone surrogates: they all become U+FFFD, so two such names are one property (C103_given_refuted). Proved when no name is of this kind; that listing and asking agree is proved for every link whose properties are a map, which C36 shows of parsed ones. The order in which an object lists its entries is a parameter."
  }
 ]
}