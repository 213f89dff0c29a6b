#!/usr/bin/env python3
"""Writes /verif/properties.jsonl from the table below (one JSON object per line)."""
import json, os
V = "vimwiki-core/src/lang/"
P = V + "parsers/"
B = P + "vimwiki/blocks/"
E = V + "elements/"
O = V + "output/"
C = "vimwiki-cli/src/"
props = []
def p(title, statement, quantifier, why, anchors):
    props.append(dict(id="C%02d" % (len(props) + 1), title=title, statement=statement,
                      quantifier=quantifier, why_tests_cant=why, anchors=anchors))

# ---- parsing: totality -----------------------------------------------------
p("Parsing a page never returns a parse error",
  "Whatever text is given to the vimwiki page parser, the call does not return an error: every input is a valid page and all of it is consumed.",
  "every finite byte string, every behaviour of the URI and date libraries",
  "The input space is infinite and the claim depends on the fallback paragraph accepting exactly what all other block parsers reject.",
  [P+"vimwiki/mod.rs: page", B+"mod.rs: top_level_block_element", B+"paragraphs.rs: paragraph", B+"inline/typefaces.rs: text"])
p("Parsing a page never panics",
  "Whatever text is given to the page parser, the call returns; it never aborts the process with a panic.",
  "every finite byte string",
  "A panic needs a particular combination of elements (backtracking raw links, non-ASCII indentation); tests only visit a few inputs.",
  [B+"inline/typefaces.rs: text", B+"code.rs: code_block", B+"math.rs: math_block"])
p("Parsing terminates",
  "The page parser stops after finitely many steps for every input; no repetition parser loops on an element that consumes nothing.",
  "every finite byte string, every nesting depth",
  "Non-termination cannot be observed by a finite test run.",
  [P+"vimwiki/mod.rs: page", B+"lists.rs: list", B+"inline/typefaces.rs: decorated_text"])
# ---- parsing: locations ------------------------------------------------------
p("Element regions lie inside the input",
  "Every element reported by the parser carries a region (offset, length) that lies inside the text that was parsed.",
  "every input, every element at every depth of the resulting page",
  "Offsets are computed by subtraction of cursor positions at every level of nesting; only an invariant covers all nestings.",
  [P+"utils/convert.rs: locate, capture", E+"utils/region.rs: Region"])
p("Child regions are nested in parent regions and siblings are in order",
  "The region of a nested element lies inside the region of the element that contains it, and sibling elements appear in increasing, non-overlapping order of region.",
  "every input, every parent/child and sibling pair in the page",
  "Needs all pairs at all nestings.",
  [P+"utils/convert.rs: locate, capture", B+"lists.rs", B+"tables.rs", B+"definitions.rs", B+"inline/mod.rs"])
p("Plain text elements are exact slices of the source",
  "The string stored in a text element equals the slice of the source that its region designates.",
  "every input, every text element produced by the inline parser",
  "The text parser backtracks and re-measures its own length; equality must hold for every mixture of surrounding elements.",
  [B+"inline/typefaces.rs: text"])
p("Inline elements tile their line: nothing is skipped or duplicated",
  "The inline elements parsed from a line have regions that follow each other without gaps or overlaps, and the last one ends at the end of that line (or of the input).",
  "every input, every inline container produced for a paragraph line",
  "Coverage of all bytes for all inputs is a universally quantified statement.",
  [B+"inline/mod.rs: inline_element_container, inline_element", B+"inline/typefaces.rs: text"])
p("Strings handed to the user are valid UTF-8",
  "If the input is valid UTF-8, every region begins and ends on a character boundary, so that the unchecked conversions to str never build an invalid str (undefined behaviour).",
  "every valid UTF-8 input, every element of the page",
  "Undefined behaviour is not observable by tests; multi-byte characters can occur at any position.",
  [P+"span.rs: as_unsafe_remaining_str, map_remaining_unsafe_str_into", P+"utils/convert.rs: cow_str"])
p("Parsers never move backwards and never leave their input",
  "A successful parser returns a rest that is a suffix of its input (same buffer, same end, start not smaller, same depth).",
  "every parser of the inline and block grammar, every input span",
  "All later length computations subtract cursors; one counterexample anywhere breaks them.",
  [P+"span.rs: Span", P+"utils/convert.rs: deeper, capture", B+"mod.rs"])
p("Line and column of a position are the 1-based text coordinates",
  "The line of a span is one plus the number of newlines before its start, and its column is one plus the number of characters between the last newline and its start.",
  "every buffer, every start offset",
  "All buffers and offsets.",
  [P+"span.rs: line, column, line_and_column"])
p("End line and column of a span designate its last byte",
  "The end line and end column of a non-empty span are the coordinates of its last byte.",
  "every buffer, every span (start, end) of it",
  "Tests use spans that start at offset 0, where the arithmetic happens to be right.",
  [P+"span.rs: at_end, end_line, end_column, end_line_and_column"])
p("Whitespace test of a span",
  "A span is reported to be only whitespace exactly when every remaining byte is a space or a tab.",
  "every span",
  "The scan works with gaps between hits; short spans are corner cases.",
  [P+"span.rs: is_only_whitespace", B+"placeholders.rs", B+"blockquotes.rs"])
# ---- byte utilities ------------------------------------------------------------
p("Line-bounded search parsers stop at the first match or at the end of line",
  "take_line_until (and its one-of-two / one-of-three variants) return the longest prefix of the line that contains no occurrence of a pattern, never crossing a line ending, and leave the rest untouched.",
  "every pattern, every input",
  "Search is over arbitrary texts with overlapping near-matches and CR LF endings.",
  [P+"utils/bytes.rs: take_line_until, take_line_until_one_of_two, take_line_until_one_of_three"])
p("Surround parser returns the shortest non-empty bracketed content on the line",
  "surround_in_line1(left, right) succeeds exactly when the input starts with left and right occurs later on the same line after at least one byte; the content is the text before the first such occurrence.",
  "every pair of non-empty delimiters, every input",
  "Delimiters may overlap the content; needs all inputs.",
  [P+"utils/bytes.rs: surround_in_line1"])
p("Whitespace trimming keeps exactly the non-blank core",
  "Trimming a span removes all and only the leading and trailing spaces and tabs.",
  "every span",
  "Universal over byte strings.",
  [P+"utils/whitespace.rs: trim_whitespace, trim_trailing_whitespace, count_trailing_whitespace"])
p("Blank lines and line splitting",
  "A blank line is recognised exactly when the cursor is at the start of a line holding only spaces/tabs; reading a line returns its content without the terminator and positions the cursor at the start of the next line.",
  "every span",
  "Universal over byte strings including CR LF and missing final newline.",
  [P+"utils/line.rs: blank_line, any_line, rest_of_line, beginning_of_line"])
# ---- block grammar ---------------------------------------------------------------
p("Headers have a level between 1 and 6 and non-empty content",
  "Every header in a parsed page has level 1..6 equal to the number of equal signs on both sides, and its content is not empty.",
  "every input",
  "Universal over inputs.",
  [B+"headers.rs: header, header_tail", E+"blocks/headers.rs: Header"])
p("A divider is exactly a line of four or more hyphens",
  "A line start parses as a divider exactly when the line consists of at least four hyphens and nothing else.",
  "every input span at the start of a line",
  "Needs all lines.",
  [B+"dividers.rs: divider"])
p("List items are numbered by position",
  "In every list of a parsed page the items are non-empty in number and the i-th item carries position i, at every nesting depth.",
  "every input, every list at every depth",
  "Numbering is assigned after the fact by an accumulating fold.",
  [B+"lists.rs: list", E+"blocks/lists/mod.rs: List"])
p("List items have at least one block of content and a uniform marker type",
  "Every list item contains at least one block element, and after parsing all items of a list carry the marker kind of the list's first item whenever the first item is ordered by letters or roman numerals.",
  "every input, every list",
  "Normalisation depends on all the items of the list.",
  [B+"lists.rs: list, list_item_tail", E+"blocks/lists/mod.rs: normalize"])
p("Tables are rectangular addresses without duplicates and contain a content row",
  "The cells of a parsed table are addressed (row, column) from 0 without gaps inside each row, every row has at least one cell, and at least one row is not a divider row.",
  "every input, every table",
  "Needs all row/column shapes.",
  [B+"tables.rs: table, row, cell", E+"blocks/tables.rs"])
p("Every term of a definition list has a definition",
  "Each term of a parsed definition list owns at least one definition, in source order.",
  "every input, every definition list",
  "Terms and definitions are collected by nested optional/repetition parsers.",
  [B+"definitions.rs: definition_list, term_and_definitions"])
p("Code and math blocks keep their lines verbatim up to the common indentation",
  "The lines of a code or math block are the source lines between the fences with exactly min(own indentation, fence indentation) leading bytes removed, in order, none dropped.",
  "every input, every fenced block",
  "All line contents and indentations.",
  [B+"code.rs: code_block", B+"math.rs: math_block"])
p("An unterminated fence is not a block",
  "If no closing fence line follows an opening fence, no code (math) block is produced there.",
  "every input",
  "Absence over all suffixes.",
  [B+"code.rs: code_block", B+"math.rs: math_block"])
p("Blockquotes keep their lines in order",
  "An arrow blockquote yields the text after '> ' of each quoted line in order, with one empty line for each blank line between quoted lines, and never ends with a blank line.",
  "every input",
  "Universal over line sequences.",
  [B+"blockquotes.rs: arrow_blockquote, indented_blockquote"])
p("Comments hide markup: nothing inside them is interpreted",
  "A line comment extends to the end of its line and a multi-line comment to its first closing marker; their content is kept verbatim.",
  "every input",
  "Universal over contents.",
  [B+"inline/comments.rs"])
p("Inline code and math are verbatim and single-line",
  "Inline code and inline math contain the exact bytes between their delimiters, never empty, never containing the delimiter, a newline or a comment marker.",
  "every input",
  "Universal over contents.",
  [B+"inline/code.rs: code_inline", B+"inline/math.rs: math_inline"])
p("Tags contain no separator and only start at word boundaries",
  "Every parsed tag is non-empty and contains no colon and no ASCII whitespace, and a tag list only starts at the beginning of input or after whitespace.",
  "every input",
  "Universal over contexts.",
  [B+"inline/tags.rs: tags", P+"utils/character.rs: whole_word"])
# ---- elements ------------------------------------------------------------------
p("Table header and body rows partition the rows",
  "Header rows, the divider row and body rows of a table are disjoint and together are all the rows.",
  "every table (any cell map)",
  "All shapes of tables, including ragged ones.",
  [E+"blocks/tables.rs"])
p("Iterating over a table visits every cell once",
  "The cell iterators of a table produce every stored cell exactly once.",
  "every table (any cell map)",
  "Ragged tables are corner cases of the iterator state machine.",
  [E+"blocks/tables.rs: iter"])
p("Row and column spans count the span cells that follow",
  "The rowspan (colspan) of a content cell is one plus the number of consecutive span-from-above (span-from-left) cells directly below (right of) it.",
  "every table, every cell",
  "All layouts.",
  [E+"blocks/tables.rs: get_cell_rowspan, get_cell_colspan"])
p("Cell positions survive printing and parsing",
  "Parsing the printed form of a cell position gives back the same position.",
  "every position",
  "Infinite domain.",
  [E+"blocks/tables.rs: CellPos"])
p("Letter numbering of list items is injective",
  "The alphabetic label of list items is different for different positions, and is a, b, ..., z, aa, ab, ... in order.",
  "every position",
  "Infinite domain; bijective base 26 has carry corner cases.",
  [E+"blocks/lists/item.rs: pos_to_alphabet"])
p("Todo progress is a fraction between 0 and 1 and is 1 exactly when everything is complete",
  "The computed progress of a list item with sub-tasks is always within [0,1].",
  "every list tree",
  "Recursive average over arbitrary trees.",
  [E+"blocks/lists/item.rs: compute_todo_progress"])
p("Equality of located elements ignores regions; strict equality refines it",
  "Two located elements are equal when their contents are equal whatever their regions; strict equality implies equality, and equal elements hash alike.",
  "every pair of located elements",
  "Universal over pairs; hash consistency cannot be tested exhaustively.",
  [E+"utils/mod.rs", E+"utils"])
p("Definition lookup by term",
  "Looking up a term in a definition list returns its definitions regardless of inline markup used to write the term with the same text.",
  "every definition list, every term",
  "All pairs of differently marked up terms.",
  [E+"blocks/definitions.rs"])
p("Anchors round-trip through their textual form",
  "Turning an anchor into a URI fragment (or displaying it) and reading it back gives the same list of parts.",
  "every list of parts without '#'",
  "Infinite domain.",
  [E+"blocks/inline/links/anchor.rs: Anchor"])
p("URI percent-encoding of link targets is lossless",
  "Decoding the encoded form of a link target gives back the text the user typed.",
  "every link text",
  "Infinite domain; double encodings are corner cases.",
  [E+"blocks/inline/links/data.rs: encode_uri, decode_uri"])
# ---- html output ----------------------------------------------------------------
p("HTML ids are unique in a page",
  "No two elements of a generated HTML page carry the same id.",
  "every sequence of headers, bold texts and tags",
  "Depends on the whole history of ids handed out.",
  [O+"html/formatter.rs: ensure_unique_id", O+"html/mod.rs: build_complete_id"])
p("Complete header ids follow the header hierarchy",
  "The complete id of a header is the path of the enclosing header titles at the time it is emitted.",
  "every sequence of headers",
  "Depends on the history of headers.",
  [O+"html/formatter.rs: insert_header_text", O+"html/mod.rs: Header"])
p("Text cannot inject HTML",
  "User text in paragraphs, code, math, quotes and attributes is escaped: the markup characters '<' and '>' of the output all come from the generator.",
  "every page without raw passthrough",
  "Injection needs adversarial inputs.",
  [O+"html/mod.rs", O+"html/utils.rs: escape_html"])
p("Generated HTML is well nested",
  "The HTML of a page is the serialisation of a tree: every opened tag is closed in the right order.",
  "every page",
  "All trees of elements.",
  [O+"html/mod.rs"])
p("Each template variable is replaced and page content is inserted unchanged",
  "In the final HTML page the content is inserted verbatim at the content marker: markers occurring inside the rendered content are not substituted.",
  "every template, every content",
  "Substitution order matters for adversarial contents.",
  [O+"html/convert.rs: to_html_page"])
p("Output files stay below the HTML root",
  "For a page inside a wiki, the path of the generated file lies inside that wiki's HTML directory.",
  "every wiki configuration and page path",
  "Path components are adversarial.",
  [O+"html/config.rs: make_output_path"])
p("Path to root is the right number of parent hops",
  "The relative path from a page to its wiki root consists of exactly one parent hop per directory between them.",
  "every page path below a wiki",
  "Infinite domain of paths.",
  [O+"html/config.rs: path_to_root"])
p("A page is attributed to the deepest enclosing wiki",
  "Among the configured wikis whose directory contains the page, the one with the longest path is chosen.",
  "every configuration and page path",
  "All nestings of wiki directories.",
  [O+"html/config.rs: find_wiki_index_by_path"])
p("Relative links lead to their target",
  "Following the generated relative link from the directory of the source page leads to the target file.",
  "every pair of absolute file paths",
  "All relative positions of two paths.",
  [O+"html/utils.rs: make_relative_link, make_path_relative"])
p("Path normalisation removes dots and is idempotent",
  "Normalising a path removes every '.' and every resolvable '..' and doing it twice changes nothing.",
  "every path",
  "Infinite domain.",
  [O+"html/utils.rs: normalize_path"])
p("Wiki links resolve to the page's HTML file",
  "A wiki link to a page resolves to the HTML file generated for it, keeps the anchor, and directory links resolve to the index page.",
  "every link and page path",
  "All link shapes.",
  [O+"html/utils.rs: resolve_link"])
# ---- vimwiki output -----------------------------------------------------------------
p("Formatting keeps table content",
  "Formatting a table prints every content cell.",
  "every parsed table",
  "Ragged rows and alignment-only columns are corner cases.",
  [O+"vimwiki/mod.rs: Table"])
p("Formatting does not panic",
  "Formatting any parsed page returns.",
  "every parsed page",
  "Width arithmetic may underflow for unusual columns.",
  [O+"vimwiki/mod.rs: Table"])
p("Formatted elements parse back to the same element",
  "Printing an element in vimwiki syntax and parsing the result gives the same element.",
  "every element of the supported classes",
  "Infinite domain.",
  [O+"vimwiki/mod.rs", B+"mod.rs"])
p("Formatter trimming only removes whitespace",
  "The trimming operations of the formatter remove only whitespace and keep all other output.",
  "every sequence of writer operations",
  "All sequences of writes.",
  [O+"vimwiki/formatter.rs"])
# ---- cli -------------------------------------------------------------------------------
p("The include option selects exactly the named wikis",
  "Converting with an include list processes exactly the configured wikis whose index or name is listed.",
  "every configuration and include list",
  "Index shifts only show up with several wikis.",
  [C+"utils.rs: load_html_config", C+"ast.rs: load_ast", C+"subcommand/convert.rs", C+"opt.rs: filter_by_wiki_idx_and_name"])
p("The cache never changes the result",
  "Loading a wiki file gives the page that parsing its current text gives, whatever the cache directory contains after any history of previous runs, edits and crashes.",
  "every history of runs, edits and crashes at any point of a cache write",
  "All histories and crash points.",
  [C+"ast.rs: load_wiki_file"])
p("Disabling the cache leaves no cache files",
  "With the cache disabled no cache file is read or written.",
  "every run",
  "All file system states.",
  [C+"ast.rs: load_wiki_file"])
p("Pruning removes exactly the stale cache files",
  "Pruning deletes a cache file exactly when no loaded file has its checksum.",
  "every cache directory and set of files",
  "All sets.",
  [C+"ast.rs: load_ast"])
# ---- added while the model grew ---------------------------------------------------------
p("The recorded depth is the nesting depth",
  "The depth recorded in the region of an element is the number of elements that enclose it.",
  "every input, every element of the page",
  "The depth is threaded through dozens of parsers and must be restored on every path.",
  [P+"utils/mod.rs: deeper", P+"span.rs: with_deeper_depth"])
p("Blocks start at line starts and nothing between them is lost",
  "The blocks of a page begin at the beginning of a line and are in source order; all text outside of them consists of blanks and line endings.",
  "every input",
  "Requires looking at every byte of every input.",
  [P+"vimwiki/mod.rs: page"])
p("Decorated text keeps its content",
  "The parts of a decorated text (bold, italic, ...) together are the text between its delimiters.",
  "every input, every decorated text",
  "Only fails for special combinations of nested markup.",
  [B+"inline/typefaces.rs"])
p("Placeholders are whole lines and keep their value",
  "A placeholder stands at the beginning of a line and its value is the rest of that line after the blanks.",
  "every input",
  "All spellings of all placeholders.",
  [B+"placeholders.rs"])
p("Links and keywords are what is written",
  "The data of a link is read from the text between its brackets (or is the raw URL itself) and a keyword element covers exactly that keyword.",
  "every input, every link and keyword",
  "All link texts.",
  [B+"inline/links/mod.rs", B+"inline/typefaces.rs: keyword"])
p("Different pages have different output files",
  "Two different pages of a wiki (files with the extension of the wiki) are never written to the same HTML file.",
  "every wiki configuration, every two pages",
  "All pairs of file names, including names with several dots.",
  ["vimwiki-core/src/lang/output/html/config.rs: make_output_path"])
p("The HTML shows the document",
  "Apart from ids and the wrappers carrying them, the HTML of a page consists of the elements of the document with their texts, attributes and link targets, in document order, and nothing else.",
  "every page whose unescaped parts contain no markup characters",
  "All documents; nothing may be lost, repeated or reordered.",
  ["vimwiki-core/src/lang/output/html/mod.rs"])
p("Rendering fails only because of a link or the highlighter",
  "Rendering a page always ends; it succeeds exactly when every link of the page can be resolved and every code block highlighted, and otherwise reports one that cannot.",
  "every page, every configuration",
  "All pages and configurations.",
  ["vimwiki-core/src/lang/output/html/mod.rs", "vimwiki-core/src/lang/output/html/formatter.rs: ensure_unique_id"])
p("Tags carry the path of their section",
  "The complete id in front of a tag is the path of the headers enclosing it followed by the tag.",
  "every sequence of headers and tags",
  "Depends on the history of headers.",
  ["vimwiki-core/src/lang/output/html/mod.rs: Tags, build_complete_id"])
p("Links to headers lead to them",
  "A link with an anchor naming a header of a page leads to the id that header gets in the HTML of that page.",
  "every page, every header, every link",
  "Two independent computations have to agree on all texts.",
  ["vimwiki-core/src/lang/output/html/utils.rs: resolve_link, normalize_id", "vimwiki-core/src/lang/output/html/mod.rs: Header"])
p("Links are resolved in the wiki of the page",
  "The links of a page are resolved relative to the wiki the page is converted for; a page without one is treated as lying at the root of its own wiki.",
  "every configuration, every page",
  "All configurations.",
  ["vimwiki-core/src/lang/output/html/config.rs: to_current_wiki", "vimwiki-core/src/lang/output/html/mod.rs: write_link"])
p("Pages marked nohtml are not converted",
  "A page with the placeholder %nohtml produces no HTML page.",
  "every page",
  "All positions of the placeholder.",
  ["vimwiki-core/src/lang/output/html/mod.rs: Placeholder", "vimwiki-core/src/lang/output/html/convert.rs: to_html_page"])
p("Values of template variables are inserted as they are",
  "Every variable of a template is replaced by its value and values are not searched for variables again.",
  "every template, every title, file name and path",
  "Substitution order matters for adversarial values.",
  ["vimwiki-core/src/lang/output/html/convert.rs: to_html_page"])
p("Formatting without --inline changes no file",
  "Formatting files without the option --inline only prints; every file stays as it is.",
  "every file system, every list of paths",
  "All file system states and all ways to fail in the middle.",
  ["vimwiki-cli/src/subcommand/format.rs"])
p("Formatting in place changes exactly the files asked for",
  "Formatting in place replaces the texts of the named files, and of the files with one of the given extensions below the named directories, by their formatted texts, and changes nothing else; after success all of them are formatted.",
  "every file system, every list of paths and extensions",
  "All trees and all orders of visiting, also of files named twice.",
  ["vimwiki-cli/src/subcommand/format.rs"])
p("A crash while formatting loses no document",
  "When formatting in place is interrupted at any point, every document has its old text or its formatted text.",
  "every file system, every crash point",
  "All crash points, also within the writing of a file.",
  ["vimwiki-cli/src/subcommand/format.rs"])
p("Converting writes nothing but the pages, style sheets and the cache",
  "Converting writes cache files, the HTML of pages at the output paths of the wikis owning them and style sheets in the output directories; with --stdout it only prints; every HTML is that of a text the file had during the run.",
  "every file system, configuration and cache, every history of runs, edits and crashes",
  "All configurations and all earlier contents of the cache.",
  ["vimwiki-cli/src/subcommand/convert.rs", "vimwiki-cli/src/ast.rs"])
p("The formatted text depends only on what the page says",
  "Formatting gives the same text for all pages with the same content, wherever the elements stood in the source and in whatever order attributes were stored; in particular for equal pages.",
  "every two pages with the same content, every configuration",
  "Attributes and table cells live in hash maps whose iteration order differs from run to run.",
  ["vimwiki-core/src/lang/output/vimwiki/mod.rs", "vimwiki-core/src/lang/elements/blocks/code.rs: metadata", "vimwiki-core/src/lang/elements/blocks/inline/links/data.rs: properties", "vimwiki-core/src/lang/elements/blocks/tables.rs: cells"])
p("Formatting twice is formatting once",
  "Formatting the text of a formatted page does not change it.",
  "every page",
  "All documents; printer and parser have to agree.",
  ["vimwiki-core/src/lang/output/vimwiki/mod.rs", "vimwiki-core/src/lang/parsers/vimwiki/mod.rs", "vimwiki-cli/src/subcommand/format.rs"])
p("The HTML depends only on what the page says",
  "Rendering gives the same HTML for all pages with the same content, wherever the elements stood in the source and in whatever order attributes were stored, so that converting again gives the same files.",
  "every two pages with the same content, every configuration",
  "Attributes and table cells live in hash maps whose iteration order differs from run to run.",
  ["vimwiki-core/src/lang/output/html/mod.rs: CodeBlock, write_link, Table"])
p("Saved pages are read back",
  "What the program saves for a parsed page as JSON is read back as that page, and no beginning of it is read as a page.",
  "every text, every page parsed from it, every point at which the file may be cut off",
  "All pages, all strings with characters to be escaped, all depths of nesting.",
  ["vimwiki-cli/src/ast.rs: load_wiki_file", "vimwiki-core/src/lang/elements: Serialize, Deserialize"])
p("inspect answers its query for every wiki that can be loaded",
  "vimwiki inspect prints, or writes to the given file, the selected parts of all loaded pages as JSON.",
  "every file system, configuration and query",
  "All wikis and all kinds of elements on their pages.",
  ["vimwiki-cli/src/subcommand/inspect.rs", "vimwiki-cli/src/ast.rs", "vimwiki-core/src/lang/elements/blocks/definitions.rs: Serialize"])
p("Macros take the shared indentation from their text",
  "A vimwiki macro drops the blank lines around the text of its literal and takes from the lines between the indentation they share; the raw macros keep these lines as they are.",
  "every literal in every literal form, every layout of lines",
  "All indentations, also with blank lines, tabs and white space of several bytes.",
  ["vimwiki_macros/src/utils.rs: input_to_string"])
p("The literal of a macro denotes the text it denotes in Rust",
  "The text a macro parses is the value of its literal: it does not depend on the form of the literal (plain, raw, byte), and escapes mean what they mean in Rust.",
  "every literal",
  "All texts between the quotation marks and all literal forms.",
  ["vimwiki_macros/src/utils.rs: input_to_string"])
p("A macro gives the page that parsing its text gives",
  "The value of vimwiki_page! is equal to the page parsed from the same text at run time, with every element at the same place.",
  "every text and page",
  "All pages: the tree is taken apart into code and put together again.",
  ["vimwiki_macros/src/lib.rs", "vimwiki_macros/src/tokens"])
p("Format macros put the arguments where format! would",
  "In the format macros every placeholder, empty, numbered or named, with or without a specification, is replaced by the argument it asks for, other text stays, and a missing argument is an error.",
  "every format string, every arguments",
  "All mixtures of placeholders; positions are renumbered for each text.",
  ["vimwiki_macros/src/formatter.rs"])
p("Arguments of a format macro are text and do not change the structure",
  "The page of a format macro has the elements of the page its literal describes, at the same places; only texts differ, and empty placeholders take the arguments in the order of the texts.",
  "every page, every arguments",
  "All arguments, also with markup, and all places in a page where text can stand.",
  ["vimwiki_macros/src/tokens", "vimwiki_macros/src/formatter.rs"])
p("The value of a format macro is determined by literal and arguments",
  "Building the same program twice gives the same page: which argument goes where does not depend on the order in which hash maps yield table cells and attributes.",
  "every page and every iteration order of its maps",
  "The iteration order of hash maps differs from build to build.",
  ["vimwiki_macros/src/tokens/elements/blocks/tables.rs", "vimwiki_macros/src/tokens/utils.rs: tokenize_hashmap"])
p("Walking through a page visits every element once",
  "The descendants of a page, as children of children, are all its elements at every depth, each as often as it occurs, level by level in the order of the text.",
  "every text that parses as a page",
  "All nestings of elements; the walk is a loop over a growing queue.",
  ["vimwiki-core/src/lang/elements: IntoChildren", "vimwiki-wasm/src/elements.rs: impl_iter"])
p("A position in the text belongs to one chain of elements",
  "Of two elements whose regions contain the same position one is inside the other, and a visible byte is in exactly one block, so an element can be looked up by the place of the cursor.",
  "every text, every position, every pair of elements",
  "All pairs of elements in all pages.",
  ["vimwiki-core/src/lang/elements/utils/region.rs: contains", "vimwiki-core/src/lang/parsers/vimwiki"])
p("A region made from a range contains exactly the positions of the range",
  "Region::from a range, inclusive or not, contains the positions the range contains, for all usize values, and is empty exactly if the range is.",
  "every range over usize and every position",
  "2^192 combinations; the interesting ones are at the largest values.",
  ["vimwiki-core/src/lang/elements/utils/region.rs"])
p("Parsing a text as one element agrees with parsing it as a page",
  "Parsing a text as a block, or as a certain kind of block, gives the element the text is as a page, at the same place, and fails if the text is anything else.",
  "every text and every kind of element",
  "All texts, and each of the entry points against the page parser.",
  ["vimwiki-core/src/lang/mod.rs: impl_from_language", "vimwiki-core/src/lang/parsers/vimwiki/mod.rs"])
p("--include selects the wikis it names",
  "A filter that is a number matches the wiki with that index and no other, any other filter the wikis with that name, and every wiki is matched by its name. (Which wikis a run then processes is C54.)",
  "every filter text, every wiki name and index",
  "All texts, also numbers with signs, leading zeros and beyond usize.",
  ["vimwiki-cli/src/opt.rs: IndexOrName", "vimwiki-cli/src/ast.rs"])
p("Dates pass between JavaScript and vimwiki unchanged",
  "The date of a placeholder is the date written on the page, and a diary link made for a JavaScript date is a link for that date.",
  "every date of the Gregorian calendar",
  "All dates, including leap days and ends of months.",
  ["vimwiki-wasm/src/elements.rs: Placeholder::date, Link::new_diary_link"])
p("The description given to a link from JavaScript is its text",
  "Link constructors keep the description given as the text of the link, and fail only if the address is not a URI reference.",
  "every address and description",
  "All strings; descriptions are first tried as URI references.",
  ["vimwiki-wasm/src/elements.rs: Link"])
p("A table made from JavaScript has its cells where they were given",
  "The cell at row r and column c of a table made from a matrix is the entry at row r and column c of the matrix.",
  "every matrix, also ragged and with entries that are no cells",
  "All shapes of the matrix.",
  ["vimwiki-wasm/src/elements.rs: Table::new"])
p("Comments and definitions seen from JavaScript keep their text and parts",
  "A comment made from a text gives the text and its lines back, and the definitions of a term can be told apart.",
  "every text and every definition list",
  "All texts, white space of every kind, any number of definitions.",
  ["vimwiki-wasm/src/elements.rs: Comment, DefinitionList::get_def"])
p("Every page can be turned into a JavaScript value",
  "to_js gives the value that the JSON of the page describes and never panics.",
  "every page",
  "All kinds of elements at every depth.",
  ["vimwiki-wasm/src/elements.rs: to_js", "vimwiki-core/src/lang/elements/blocks/definitions.rs: Serialize"])
p("Cells given to a table from JavaScript can be used again",
  "Making a table from Cell objects reads them: the same object can be given at several places and to several tables, and memory is never used after it was freed.",
  "every matrix of objects and every state of the memory",
  "Use after free is silent; whether it shows depends on the allocator.",
  ["vimwiki-wasm/src/utils.rs: cast_value", "vimwiki-wasm/src/elements.rs: Table::new"])
p("The exit status says how far a run got",
  "Status 1 means that the configuration or a path could not be read and nothing was touched, 2 that the wikis could not be loaded and only the cache was touched, 0 that the subcommand did its work.",
  "every file system, configuration and subcommand",
  "All ways in which loading can fail, at every file.",
  ["vimwiki-cli/src/lib.rs: run", "vimwiki-cli/src/subcommand/serve.rs"])
p("A page reads the same with Unix and with Windows line ends",
  "Two texts with the same lines, each ended by a newline or by a carriage return and a newline, parse to elements with the same content whose blocks begin on the same lines; the formatter prints the same text for both, and the HTML is the same where links and code blocks have at most one attribute.",
  "every text, also with both kinds of line ends mixed, in which carriage returns stand only before newlines",
  "Line ends are looked for in several dozen places, by parsers that are nested, repeated and tried in turn.",
  ["vimwiki-core/src/lang/parsers/utils/character.rs: end_of_line_or_input", "vimwiki-core/src/lang/parsers/utils/line.rs: any_line", "vimwiki-core/src/lang/parsers/vimwiki/blocks"])
p("Blocks do not depend on what stands before them",
  "The text from where a block begins, read alone, gives that block and all later ones, each element as far from the beginning as it was from that block; after two different beginnings at whose end a block begins, a text gives the same blocks; blank lines in front of a text move its elements and change nothing else, so it is printed as the same text and gives the same HTML where links and code blocks have at most one attribute.",
  "every text that parses and every block of it; every text and any number of blank lines",
  "The parsers look back at what has been read (for the beginning of a line and of a word) and share state between blocks; texts and beginnings are unlimited.",
  ["vimwiki-core/src/lang/parsers/vimwiki/mod.rs: page", "vimwiki-core/src/lang/parsers/vimwiki/blocks/mod.rs: top_level_block_element", "vimwiki-core/src/lang/parsers/utils/line.rs: beginning_of_line, blank_line", "vimwiki-core/src/lang/parsers/span.rs: as_consumed"])
p("A missing newline at the end of the file does not matter",
  "A text whose last line is not ended, and the same text with a newline after it, parse to blocks with the same content that begin at the same places, or reading both panics; a carriage return and a newline can be added as well when carriage returns stand only before newlines; the formatter prints the same text for both, and the HTML is the same where links and code blocks have at most one attribute.",
  "every text that is empty or whose last byte is neither a newline nor a carriage return",
  "The end of the text can fall inside every kind of block and element, and each parser tests for it in its own way.",
  ["vimwiki-core/src/lang/parsers/utils/character.rs: end_of_line_or_input", "vimwiki-core/src/lang/parsers/utils/bytes.rs: take_line_until, take_until_end_of_line_or_input", "vimwiki-core/src/lang/parsers/vimwiki/blocks"])
p("The report of the timekeeper tells what was called",
  "With --timekeeper the report of a run has one line for each kind of parser that returned during that run, with the number of its calls and the sum of their times, the largest average first and in fitting units; without the option nothing is recorded, and neither the order in which threads record nor an earlier run of the same process changes the entries.",
  "every tree of parser calls, also ones that fail or panic, every interleaving and every sequence of runs",
  "Times and hash map order differ from run to run; calls are nested and unlimited.",
  ["vimwiki-core/src/timekeeper.rs: context, print_report", "vimwiki-cli/src/lib.rs: run"])
p("The text of a parse error says where and what",
  "A displayed error has two lines for itself and for each error behind it: the context with the 1-based line and column of the place, and the rest of that line up to a hundred characters; for alternatives the error of the one that got furthest is shown.",
  "every chain of errors at character boundaries of a UTF-8 text and every list of alternatives",
  "Places, characters of several bytes, line ends and nesting in every combination.",
  ["vimwiki-core/src/lang/parsers/errors.rs: fmt, or, add_context, append"])
p("Properties given to a link from JavaScript are those read back",
  "A transclusion link made from JavaScript with an object has each property whose value is a string under its name with that value, and no others; asking for one property and listing all of them agree.",
  "every URI, description, object of properties and name",
  "Names and values are any strings of JavaScript, also ones that are not valid Unicode; a hash map stands between.",
  ["vimwiki-wasm/src/elements.rs: new_transclusion_link, properties, get_property"])
out = os.path.join(os.path.dirname(os.path.abspath(__file__)), "..", "properties.jsonl")
with open(out, "w") as f:
    for x in props:
        f.write(json.dumps(x) + "\n")
print(len(props))
