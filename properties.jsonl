{"id": "C01", "title": "Parsing a page never returns a parse error", "statement": "Whatever text is given to the vimwiki page parser, the call does not return an error: every input is a valid page and all of it is consumed.", "quantifier": "every finite byte string, every behaviour of the URI and date libraries", "why_tests_cant": "The input space is infinite and the claim depends on the fallback paragraph accepting exactly what all other block parsers reject.", "anchors": ["vimwiki-core/src/lang/parsers/vimwiki/mod.rs: page", "vimwiki-core/src/lang/parsers/vimwiki/blocks/mod.rs: top_level_block_element", "vimwiki-core/src/lang/parsers/vimwiki/blocks/paragraphs.rs: paragraph", "vimwiki-core/src/lang/parsers/vimwiki/blocks/inline/typefaces.rs: text"]}
{"id": "C02", "title": "Parsing a page never panics", "statement": "Whatever text is given to the page parser, the call returns; it never aborts the process with a panic.", "quantifier": "every finite byte string", "why_tests_cant": "A panic needs a particular combination of elements (backtracking raw links, non-ASCII indentation); tests only visit a few inputs.", "anchors": ["vimwiki-core/src/lang/parsers/vimwiki/blocks/inline/typefaces.rs: text", "vimwiki-core/src/lang/parsers/vimwiki/blocks/code.rs: code_block", "vimwiki-core/src/lang/parsers/vimwiki/blocks/math.rs: math_block"]}
{"id": "C03", "title": "Parsing terminates", "statement": "The page parser stops after finitely many steps for every input; no repetition parser loops on an element that consumes nothing.", "quantifier": "every finite byte string, every nesting depth", "why_tests_cant": "Non-termination cannot be observed by a finite test run.", "anchors": ["vimwiki-core/src/lang/parsers/vimwiki/mod.rs: page", "vimwiki-core/src/lang/parsers/vimwiki/blocks/lists.rs: list", "vimwiki-core/src/lang/parsers/vimwiki/blocks/inline/typefaces.rs: decorated_text"]}
{"id": "C04", "title": "Element regions lie inside the input", "statement": "Every element reported by the parser carries a region (offset, length) that lies inside the text that was parsed.", "quantifier": "every input, every element at every depth of the resulting page", "why_tests_cant": "Offsets are computed by subtraction of cursor positions at every level of nesting; only an invariant covers all nestings.", "anchors": ["vimwiki-core/src/lang/parsers/utils/convert.rs: locate, capture", "vimwiki-core/src/lang/elements/utils/region.rs: Region"]}
{"id": "C05", "title": "Child regions are nested in parent regions and siblings are in order", "statement": "The region of a nested element lies inside the region of the element that contains it, and sibling elements appear in increasing, non-overlapping order of region.", "quantifier": "every input, every parent/child and sibling pair in the page", "why_tests_cant": "Needs all pairs at all nestings.", "anchors": ["vimwiki-core/src/lang/parsers/utils/convert.rs: locate, capture", "vimwiki-core/src/lang/parsers/vimwiki/blocks/lists.rs", "vimwiki-core/src/lang/parsers/vimwiki/blocks/tables.rs", "vimwiki-core/src/lang/parsers/vimwiki/blocks/definitions.rs", "vimwiki-core/src/lang/parsers/vimwiki/blocks/inline/mod.rs"]}
{"id": "C06", "title": "Plain text elements are exact slices of the source", "statement": "The string stored in a text element equals the slice of the source that its region designates.", "quantifier": "every input, every text element produced by the inline parser", "why_tests_cant": "The text parser backtracks and re-measures its own length; equality must hold for every mixture of surrounding elements.", "anchors": ["vimwiki-core/src/lang/parsers/vimwiki/blocks/inline/typefaces.rs: text"]}
{"id": "C07", "title": "Inline elements tile their line: nothing is skipped or duplicated", "statement": "The inline elements parsed from a line have regions that follow each other without gaps or overlaps, and the last one ends at the end of that line (or of the input).", "quantifier": "every input, every inline container produced for a paragraph line", "why_tests_cant": "Coverage of all bytes for all inputs is a universally quantified statement.", "anchors": ["vimwiki-core/src/lang/parsers/vimwiki/blocks/inline/mod.rs: inline_element_container, inline_element", "vimwiki-core/src/lang/parsers/vimwiki/blocks/inline/typefaces.rs: text"]}
{"id": "C08", "title": "Strings handed to the user are valid UTF-8", "statement": "If the input is valid UTF-8, every region begins and ends on a character boundary, so that the unchecked conversions to str never build an invalid str (undefined behaviour).", "quantifier": "every valid UTF-8 input, every element of the page", "why_tests_cant": "Undefined behaviour is not observable by tests; multi-byte characters can occur at any position.", "anchors": ["vimwiki-core/src/lang/parsers/span.rs: as_unsafe_remaining_str, map_remaining_unsafe_str_into", "vimwiki-core/src/lang/parsers/utils/convert.rs: cow_str"]}
{"id": "C09", "title": "Parsers never move backwards and never leave their input", "statement": "A successful parser returns a rest that is a suffix of its input (same buffer, same end, start not smaller, same depth).", "quantifier": "every parser of the inline and block grammar, every input span", "why_tests_cant": "All later length computations subtract cursors; one counterexample anywhere breaks them.", "anchors": ["vimwiki-core/src/lang/parsers/span.rs: Span", "vimwiki-core/src/lang/parsers/utils/convert.rs: deeper, capture", "vimwiki-core/src/lang/parsers/vimwiki/blocks/mod.rs"]}
{"id": "C10", "title": "Line and column of a position are the 1-based text coordinates", "statement": "The line of a span is one plus the number of newlines before its start, and its column is one plus the number of characters between the last newline and its start.", "quantifier": "every buffer, every start offset", "why_tests_cant": "All buffers and offsets.", "anchors": ["vimwiki-core/src/lang/parsers/span.rs: line, column, line_and_column"]}
{"id": "C11", "title": "End line and column of a span designate its last byte", "statement": "The end line and end column of a non-empty span are the coordinates of its last byte.", "quantifier": "every buffer, every span (start, end) of it", "why_tests_cant": "Tests use spans that start at offset 0, where the arithmetic happens to be right.", "anchors": ["vimwiki-core/src/lang/parsers/span.rs: at_end, end_line, end_column, end_line_and_column"]}
{"id": "C12", "title": "Whitespace test of a span", "statement": "A span is reported to be only whitespace exactly when every remaining byte is a space or a tab.", "quantifier": "every span", "why_tests_cant": "The scan works with gaps between hits; short spans are corner cases.", "anchors": ["vimwiki-core/src/lang/parsers/span.rs: is_only_whitespace", "vimwiki-core/src/lang/parsers/vimwiki/blocks/placeholders.rs", "vimwiki-core/src/lang/parsers/vimwiki/blocks/blockquotes.rs"]}
{"id": "C13", "title": "Line-bounded search parsers stop at the first match or at the end of line", "statement": "take_line_until (and its one-of-two / one-of-three variants) return the longest prefix of the line that contains no occurrence of a pattern, never crossing a line ending, and leave the rest untouched.", "quantifier": "every pattern, every input", "why_tests_cant": "Search is over arbitrary texts with overlapping near-matches and CR LF endings.", "anchors": ["vimwiki-core/src/lang/parsers/utils/bytes.rs: take_line_until, take_line_until_one_of_two, take_line_until_one_of_three"]}
{"id": "C14", "title": "Surround parser returns the shortest non-empty bracketed content on the line", "statement": "surround_in_line1(left, right) succeeds exactly when the input starts with left and right occurs later on the same line after at least one byte; the content is the text before the first such occurrence.", "quantifier": "every pair of non-empty delimiters, every input", "why_tests_cant": "Delimiters may overlap the content; needs all inputs.", "anchors": ["vimwiki-core/src/lang/parsers/utils/bytes.rs: surround_in_line1"]}
{"id": "C15", "title": "Whitespace trimming keeps exactly the non-blank core", "statement": "Trimming a span removes all and only the leading and trailing spaces and tabs.", "quantifier": "every span", "why_tests_cant": "Universal over byte strings.", "anchors": ["vimwiki-core/src/lang/parsers/utils/whitespace.rs: trim_whitespace, trim_trailing_whitespace, count_trailing_whitespace"]}
{"id": "C16", "title": "Blank lines and line splitting", "statement": "A blank line is recognised exactly when the cursor is at the start of a line holding only spaces/tabs; reading a line returns its content without the terminator and positions the cursor at the start of the next line.", "quantifier": "every span", "why_tests_cant": "Universal over byte strings including CR LF and missing final newline.", "anchors": ["vimwiki-core/src/lang/parsers/utils/line.rs: blank_line, any_line, rest_of_line, beginning_of_line"]}
{"id": "C17", "title": "Headers have a level between 1 and 6 and non-empty content", "statement": "Every header in a parsed page has level 1..6 equal to the number of equal signs on both sides, and its content is not empty.", "quantifier": "every input", "why_tests_cant": "Universal over inputs.", "anchors": ["vimwiki-core/src/lang/parsers/vimwiki/blocks/headers.rs: header, header_tail", "vimwiki-core/src/lang/elements/blocks/headers.rs: Header"]}
{"id": "C18", "title": "A divider is exactly a line of four or more hyphens", "statement": "A line start parses as a divider exactly when the line consists of at least four hyphens and nothing else.", "quantifier": "every input span at the start of a line", "why_tests_cant": "Needs all lines.", "anchors": ["vimwiki-core/src/lang/parsers/vimwiki/blocks/dividers.rs: divider"]}
{"id": "C19", "title": "List items are numbered by position", "statement": "In every list of a parsed page the items are non-empty in number and the i-th item carries position i, at every nesting depth.", "quantifier": "every input, every list at every depth", "why_tests_cant": "Numbering is assigned after the fact by an accumulating fold.", "anchors": ["vimwiki-core/src/lang/parsers/vimwiki/blocks/lists.rs: list", "vimwiki-core/src/lang/elements/blocks/lists/mod.rs: List"]}
{"id": "C20", "title": "List items have at least one block of content and a uniform marker type", "statement": "Every list item contains at least one block element, and after parsing all items of a list carry the marker kind of the list's first item whenever the first item is ordered by letters or roman numerals.", "quantifier": "every input, every list", "why_tests_cant": "Normalisation depends on all the items of the list.", "anchors": ["vimwiki-core/src/lang/parsers/vimwiki/blocks/lists.rs: list, list_item_tail", "vimwiki-core/src/lang/elements/blocks/lists/mod.rs: normalize"]}
{"id": "C21", "title": "Tables are rectangular addresses without duplicates and contain a content row", "statement": "The cells of a parsed table are addressed (row, column) from 0 without gaps inside each row, every row has at least one cell, and at least one row is not a divider row.", "quantifier": "every input, every table", "why_tests_cant": "Needs all row/column shapes.", "anchors": ["vimwiki-core/src/lang/parsers/vimwiki/blocks/tables.rs: table, row, cell", "vimwiki-core/src/lang/elements/blocks/tables.rs"]}
{"id": "C22", "title": "Every term of a definition list has a definition", "statement": "Each term of a parsed definition list owns at least one definition, in source order.", "quantifier": "every input, every definition list", "why_tests_cant": "Terms and definitions are collected by nested optional/repetition parsers.", "anchors": ["vimwiki-core/src/lang/parsers/vimwiki/blocks/definitions.rs: definition_list, term_and_definitions"]}
{"id": "C23", "title": "Code and math blocks keep their lines verbatim up to the common indentation", "statement": "The lines of a code or math block are the source lines between the fences with exactly min(own indentation, fence indentation) leading bytes removed, in order, none dropped.", "quantifier": "every input, every fenced block", "why_tests_cant": "All line contents and indentations.", "anchors": ["vimwiki-core/src/lang/parsers/vimwiki/blocks/code.rs: code_block", "vimwiki-core/src/lang/parsers/vimwiki/blocks/math.rs: math_block"]}
{"id": "C24", "title": "An unterminated fence is not a block", "statement": "If no closing fence line follows an opening fence, no code (math) block is produced there.", "quantifier": "every input", "why_tests_cant": "Absence over all suffixes.", "anchors": ["vimwiki-core/src/lang/parsers/vimwiki/blocks/code.rs: code_block", "vimwiki-core/src/lang/parsers/vimwiki/blocks/math.rs: math_block"]}
{"id": "C25", "title": "Blockquotes keep their lines in order", "statement": "An arrow blockquote yields the text after '> ' of each quoted line in order, with one empty line for each blank line between quoted lines, and never ends with a blank line.", "quantifier": "every input", "why_tests_cant": "Universal over line sequences.", "anchors": ["vimwiki-core/src/lang/parsers/vimwiki/blocks/blockquotes.rs: arrow_blockquote, indented_blockquote"]}
{"id": "C26", "title": "Comments hide markup: nothing inside them is interpreted", "statement": "A line comment extends to the end of its line and a multi-line comment to its first closing marker; their content is kept verbatim.", "quantifier": "every input", "why_tests_cant": "Universal over contents.", "anchors": ["vimwiki-core/src/lang/parsers/vimwiki/blocks/inline/comments.rs"]}
{"id": "C27", "title": "Inline code and math are verbatim and single-line", "statement": "Inline code and inline math contain the exact bytes between their delimiters, never empty, never containing the delimiter, a newline or a comment marker.", "quantifier": "every input", "why_tests_cant": "Universal over contents.", "anchors": ["vimwiki-core/src/lang/parsers/vimwiki/blocks/inline/code.rs: code_inline", "vimwiki-core/src/lang/parsers/vimwiki/blocks/inline/math.rs: math_inline"]}
{"id": "C28", "title": "Tags contain no separator and only start at word boundaries", "statement": "Every parsed tag is non-empty and contains no colon and no ASCII whitespace, and a tag list only starts at the beginning of input or after whitespace.", "quantifier": "every input", "why_tests_cant": "Universal over contexts.", "anchors": ["vimwiki-core/src/lang/parsers/vimwiki/blocks/inline/tags.rs: tags", "vimwiki-core/src/lang/parsers/utils/character.rs: whole_word"]}
{"id": "C29", "title": "Table header and body rows partition the rows", "statement": "Header rows, the divider row and body rows of a table are disjoint and together are all the rows.", "quantifier": "every table (any cell map)", "why_tests_cant": "All shapes of tables, including ragged ones.", "anchors": ["vimwiki-core/src/lang/elements/blocks/tables.rs"]}
{"id": "C30", "title": "Iterating over a table visits every cell once", "statement": "The cell iterators of a table produce every stored cell exactly once.", "quantifier": "every table (any cell map)", "why_tests_cant": "Ragged tables are corner cases of the iterator state machine.", "anchors": ["vimwiki-core/src/lang/elements/blocks/tables.rs: iter"]}
{"id": "C31", "title": "Row and column spans count the span cells that follow", "statement": "The rowspan (colspan) of a content cell is one plus the number of consecutive span-from-above (span-from-left) cells directly below (right of) it.", "quantifier": "every table, every cell", "why_tests_cant": "All layouts.", "anchors": ["vimwiki-core/src/lang/elements/blocks/tables.rs: get_cell_rowspan, get_cell_colspan"]}
{"id": "C32", "title": "Cell positions survive printing and parsing", "statement": "Parsing the printed form of a cell position gives back the same position.", "quantifier": "every position", "why_tests_cant": "Infinite domain.", "anchors": ["vimwiki-core/src/lang/elements/blocks/tables.rs: CellPos"]}
{"id": "C33", "title": "Letter numbering of list items is injective", "statement": "The alphabetic label of list items is different for different positions, and is a, b, ..., z, aa, ab, ... in order.", "quantifier": "every position", "why_tests_cant": "Infinite domain; bijective base 26 has carry corner cases.", "anchors": ["vimwiki-core/src/lang/elements/blocks/lists/item.rs: pos_to_alphabet"]}
{"id": "C34", "title": "Todo progress is a fraction between 0 and 1 and is 1 exactly when everything is complete", "statement": "The computed progress of a list item with sub-tasks is always within [0,1].", "quantifier": "every list tree", "why_tests_cant": "Recursive average over arbitrary trees.", "anchors": ["vimwiki-core/src/lang/elements/blocks/lists/item.rs: compute_todo_progress"]}
{"id": "C35", "title": "Equality of located elements ignores regions; strict equality refines it", "statement": "Two located elements are equal when their contents are equal whatever their regions; strict equality implies equality, and equal elements hash alike.", "quantifier": "every pair of located elements", "why_tests_cant": "Universal over pairs; hash consistency cannot be tested exhaustively.", "anchors": ["vimwiki-core/src/lang/elements/utils/mod.rs", "vimwiki-core/src/lang/elements/utils"]}
{"id": "C36", "title": "Definition lookup by term", "statement": "Looking up a term in a definition list returns its definitions regardless of inline markup used to write the term with the same text.", "quantifier": "every definition list, every term", "why_tests_cant": "All pairs of differently marked up terms.", "anchors": ["vimwiki-core/src/lang/elements/blocks/definitions.rs"]}
{"id": "C37", "title": "Anchors round-trip through their textual form", "statement": "Turning an anchor into a URI fragment (or displaying it) and reading it back gives the same list of parts.", "quantifier": "every list of parts without '#'", "why_tests_cant": "Infinite domain.", "anchors": ["vimwiki-core/src/lang/elements/blocks/inline/links/anchor.rs: Anchor"]}
{"id": "C38", "title": "URI percent-encoding of link targets is lossless", "statement": "Decoding the encoded form of a link target gives back the text the user typed.", "quantifier": "every link text", "why_tests_cant": "Infinite domain; double encodings are corner cases.", "anchors": ["vimwiki-core/src/lang/elements/blocks/inline/links/data.rs: encode_uri, decode_uri"]}
{"id": "C39", "title": "HTML ids are unique in a page", "statement": "No two elements of a generated HTML page carry the same id.", "quantifier": "every sequence of headers, bold texts and tags", "why_tests_cant": "Depends on the whole history of ids handed out.", "anchors": ["vimwiki-core/src/lang/output/html/formatter.rs: ensure_unique_id", "vimwiki-core/src/lang/output/html/mod.rs: build_complete_id"]}
{"id": "C40", "title": "Complete header ids follow the header hierarchy", "statement": "The complete id of a header is the path of the enclosing header titles at the time it is emitted.", "quantifier": "every sequence of headers", "why_tests_cant": "Depends on the history of headers.", "anchors": ["vimwiki-core/src/lang/output/html/formatter.rs: insert_header_text", "vimwiki-core/src/lang/output/html/mod.rs: Header"]}
{"id": "C41", "title": "Text cannot inject HTML", "statement": "User text in paragraphs, code, math, quotes and attributes is escaped: the markup characters '<' and '>' of the output all come from the generator.", "quantifier": "every page without raw passthrough", "why_tests_cant": "Injection needs adversarial inputs.", "anchors": ["vimwiki-core/src/lang/output/html/mod.rs", "vimwiki-core/src/lang/output/html/utils.rs: escape_html"]}
{"id": "C42", "title": "Generated HTML is well nested", "statement": "The HTML of a page is the serialisation of a tree: every opened tag is closed in the right order.", "quantifier": "every page", "why_tests_cant": "All trees of elements.", "anchors": ["vimwiki-core/src/lang/output/html/mod.rs"]}
{"id": "C43", "title": "Each template variable is replaced and page content is inserted unchanged", "statement": "In the final HTML page the content is inserted verbatim at the content marker: markers occurring inside the rendered content are not substituted.", "quantifier": "every template, every content", "why_tests_cant": "Substitution order matters for adversarial contents.", "anchors": ["vimwiki-core/src/lang/output/html/convert.rs: to_html_page"]}
{"id": "C44", "title": "Output files stay below the HTML root", "statement": "For a page inside a wiki, the path of the generated file lies inside that wiki's HTML directory.", "quantifier": "every wiki configuration and page path", "why_tests_cant": "Path components are adversarial.", "anchors": ["vimwiki-core/src/lang/output/html/config.rs: make_output_path"]}
{"id": "C45", "title": "Path to root is the right number of parent hops", "statement": "The relative path from a page to its wiki root consists of exactly one parent hop per directory between them.", "quantifier": "every page path below a wiki", "why_tests_cant": "Infinite domain of paths.", "anchors": ["vimwiki-core/src/lang/output/html/config.rs: path_to_root"]}
{"id": "C46", "title": "A page is attributed to the deepest enclosing wiki", "statement": "Among the configured wikis whose directory contains the page, the one with the longest path is chosen.", "quantifier": "every configuration and page path", "why_tests_cant": "All nestings of wiki directories.", "anchors": ["vimwiki-core/src/lang/output/html/config.rs: find_wiki_index_by_path"]}
{"id": "C47", "title": "Relative links lead to their target", "statement": "Following the generated relative link from the directory of the source page leads to the target file.", "quantifier": "every pair of absolute file paths", "why_tests_cant": "All relative positions of two paths.", "anchors": ["vimwiki-core/src/lang/output/html/utils.rs: make_relative_link, make_path_relative"]}
{"id": "C48", "title": "Path normalisation removes dots and is idempotent", "statement": "Normalising a path removes every '.' and every resolvable '..' and doing it twice changes nothing.", "quantifier": "every path", "why_tests_cant": "Infinite domain.", "anchors": ["vimwiki-core/src/lang/output/html/utils.rs: normalize_path"]}
{"id": "C49", "title": "Wiki links resolve to the page's HTML file", "statement": "A wiki link to a page resolves to the HTML file generated for it, keeps the anchor, and directory links resolve to the index page.", "quantifier": "every link and page path", "why_tests_cant": "All link shapes.", "anchors": ["vimwiki-core/src/lang/output/html/utils.rs: resolve_link"]}
{"id": "C50", "title": "Formatting keeps table content", "statement": "Formatting a table prints every content cell.", "quantifier": "every parsed table", "why_tests_cant": "Ragged rows and alignment-only columns are corner cases.", "anchors": ["vimwiki-core/src/lang/output/vimwiki/mod.rs: Table"]}
{"id": "C51", "title": "Formatting does not panic", "statement": "Formatting any parsed page returns.", "quantifier": "every parsed page", "why_tests_cant": "Width arithmetic may underflow for unusual columns.", "anchors": ["vimwiki-core/src/lang/output/vimwiki/mod.rs: Table"]}
{"id": "C52", "title": "Formatted elements parse back to the same element", "statement": "Printing an element in vimwiki syntax and parsing the result gives the same element.", "quantifier": "every element of the supported classes", "why_tests_cant": "Infinite domain.", "anchors": ["vimwiki-core/src/lang/output/vimwiki/mod.rs", "vimwiki-core/src/lang/parsers/vimwiki/blocks/mod.rs"]}
{"id": "C53", "title": "Formatter trimming only removes whitespace", "statement": "The trimming operations of the formatter remove only whitespace and keep all other output.", "quantifier": "every sequence of writer operations", "why_tests_cant": "All sequences of writes.", "anchors": ["vimwiki-core/src/lang/output/vimwiki/formatter.rs"]}
{"id": "C54", "title": "The include option selects exactly the named wikis", "statement": "Converting with an include list processes exactly the configured wikis whose index or name is listed.", "quantifier": "every configuration and include list", "why_tests_cant": "Index shifts only show up with several wikis.", "anchors": ["vimwiki-cli/src/utils.rs: load_html_config", "vimwiki-cli/src/ast.rs: load_ast", "vimwiki-cli/src/subcommand/convert.rs", "vimwiki-cli/src/opt.rs: filter_by_wiki_idx_and_name"]}
{"id": "C55", "title": "The cache never changes the result", "statement": "Loading a wiki file gives the page that parsing its current text gives, whatever the cache directory contains after any history of previous runs, edits and crashes.", "quantifier": "every history of runs, edits and crashes at any point of a cache write", "why_tests_cant": "All histories and crash points.", "anchors": ["vimwiki-cli/src/ast.rs: load_wiki_file"]}
{"id": "C56", "title": "Disabling the cache leaves no cache files", "statement": "With the cache disabled no cache file is read or written.", "quantifier": "every run", "why_tests_cant": "All file system states.", "anchors": ["vimwiki-cli/src/ast.rs: load_wiki_file"]}
{"id": "C57", "title": "Pruning removes exactly the stale cache files", "statement": "Pruning deletes a cache file exactly when no loaded file has its checksum.", "quantifier": "every cache directory and set of files", "why_tests_cant": "All sets.", "anchors": ["vimwiki-cli/src/ast.rs: load_ast"]}
{"id": "C58", "title": "The recorded depth is the nesting depth", "statement": "The depth recorded in the region of an element is the number of elements that enclose it.", "quantifier": "every input, every element of the page", "why_tests_cant": "The depth is threaded through dozens of parsers and must be restored on every path.", "anchors": ["vimwiki-core/src/lang/parsers/utils/mod.rs: deeper", "vimwiki-core/src/lang/parsers/span.rs: with_deeper_depth"]}
{"id": "C59", "title": "Blocks start at line starts and nothing between them is lost", "statement": "The blocks of a page begin at the beginning of a line and are in source order; all text outside of them consists of blanks and line endings.", "quantifier": "every input", "why_tests_cant": "Requires looking at every byte of every input.", "anchors": ["vimwiki-core/src/lang/parsers/vimwiki/mod.rs: page"]}
{"id": "C60", "title": "Decorated text keeps its content", "statement": "The parts of a decorated text (bold, italic, ...) together are the text between its delimiters.", "quantifier": "every input, every decorated text", "why_tests_cant": "Only fails for special combinations of nested markup.", "anchors": ["vimwiki-core/src/lang/parsers/vimwiki/blocks/inline/typefaces.rs"]}
{"id": "C61", "title": "Placeholders are whole lines and keep their value", "statement": "A placeholder stands at the beginning of a line and its value is the rest of that line after the blanks.", "quantifier": "every input", "why_tests_cant": "All spellings of all placeholders.", "anchors": ["vimwiki-core/src/lang/parsers/vimwiki/blocks/placeholders.rs"]}
{"id": "C62", "title": "Links and keywords are what is written", "statement": "The data of a link is read from the text between its brackets (or is the raw URL itself) and a keyword element covers exactly that keyword.", "quantifier": "every input, every link and keyword", "why_tests_cant": "All link texts.", "anchors": ["vimwiki-core/src/lang/parsers/vimwiki/blocks/inline/links/mod.rs", "vimwiki-core/src/lang/parsers/vimwiki/blocks/inline/typefaces.rs: keyword"]}
{"id": "C63", "title": "Different pages have different output files", "statement": "Two different pages of a wiki (files with the extension of the wiki) are never written to the same HTML file.", "quantifier": "every wiki configuration, every two pages", "why_tests_cant": "All pairs of file names, including names with several dots.", "anchors": ["vimwiki-core/src/lang/output/html/config.rs: make_output_path"]}
{"id": "C64", "title": "The HTML shows the document", "statement": "Apart from ids and the wrappers carrying them, the HTML of a page consists of the elements of the document with their texts, attributes and link targets, in document order, and nothing else.", "quantifier": "every page whose unescaped parts contain no markup characters", "why_tests_cant": "All documents; nothing may be lost, repeated or reordered.", "anchors": ["vimwiki-core/src/lang/output/html/mod.rs"]}
{"id": "C65", "title": "Rendering fails only because of a link or the highlighter", "statement": "Rendering a page always ends; it succeeds exactly when every link of the page can be resolved and every code block highlighted, and otherwise reports one that cannot.", "quantifier": "every page, every configuration", "why_tests_cant": "All pages and configurations.", "anchors": ["vimwiki-core/src/lang/output/html/mod.rs", "vimwiki-core/src/lang/output/html/formatter.rs: ensure_unique_id"]}
{"id": "C66", "title": "Tags carry the path of their section", "statement": "The complete id in front of a tag is the path of the headers enclosing it followed by the tag.", "quantifier": "every sequence of headers and tags", "why_tests_cant": "Depends on the history of headers.", "anchors": ["vimwiki-core/src/lang/output/html/mod.rs: Tags, build_complete_id"]}
{"id": "C67", "title": "Links to headers lead to them", "statement": "A link with an anchor naming a header of a page leads to the id that header gets in the HTML of that page.", "quantifier": "every page, every header, every link", "why_tests_cant": "Two independent computations have to agree on all texts.", "anchors": ["vimwiki-core/src/lang/output/html/utils.rs: resolve_link, normalize_id", "vimwiki-core/src/lang/output/html/mod.rs: Header"]}
{"id": "C68", "title": "Links are resolved in the wiki of the page", "statement": "The links of a page are resolved relative to the wiki the page is converted for; a page without one is treated as lying at the root of its own wiki.", "quantifier": "every configuration, every page", "why_tests_cant": "All configurations.", "anchors": ["vimwiki-core/src/lang/output/html/config.rs: to_current_wiki", "vimwiki-core/src/lang/output/html/mod.rs: write_link"]}
{"id": "C69", "title": "Pages marked nohtml are not converted", "statement": "A page with the placeholder %nohtml produces no HTML page.", "quantifier": "every page", "why_tests_cant": "All positions of the placeholder.", "anchors": ["vimwiki-core/src/lang/output/html/mod.rs: Placeholder", "vimwiki-core/src/lang/output/html/convert.rs: to_html_page"]}
{"id": "C70", "title": "Values of template variables are inserted as they are", "statement": "Every variable of a template is replaced by its value and values are not searched for variables again.", "quantifier": "every template, every title, file name and path", "why_tests_cant": "Substitution order matters for adversarial values.", "anchors": ["vimwiki-core/src/lang/output/html/convert.rs: to_html_page"]}
{"id": "C71", "title": "Formatting without --inline changes no file", "statement": "Formatting files without the option --inline only prints; every file stays as it is.", "quantifier": "every file system, every list of paths", "why_tests_cant": "All file system states and all ways to fail in the middle.", "anchors": ["vimwiki-cli/src/subcommand/format.rs"]}
{"id": "C72", "title": "Formatting in place changes exactly the files asked for", "statement": "Formatting in place replaces the texts of the named files, and of the files with one of the given extensions below the named directories, by their formatted texts, and changes nothing else; after success all of them are formatted.", "quantifier": "every file system, every list of paths and extensions", "why_tests_cant": "All trees and all orders of visiting, also of files named twice.", "anchors": ["vimwiki-cli/src/subcommand/format.rs"]}
{"id": "C73", "title": "A crash while formatting loses no document", "statement": "When formatting in place is interrupted at any point, every document has its old text or its formatted text.", "quantifier": "every file system, every crash point", "why_tests_cant": "All crash points, also within the writing of a file.", "anchors": ["vimwiki-cli/src/subcommand/format.rs"]}
{"id": "C74", "title": "Converting writes nothing but the pages, style sheets and the cache", "statement": "Converting writes cache files, the HTML of pages at the output paths of the wikis owning them and style sheets in the output directories; with --stdout it only prints; every HTML is that of a text the file had during the run.", "quantifier": "every file system, configuration and cache, every history of runs, edits and crashes", "why_tests_cant": "All configurations and all earlier contents of the cache.", "anchors": ["vimwiki-cli/src/subcommand/convert.rs", "vimwiki-cli/src/ast.rs"]}
{"id": "C75", "title": "The formatted text depends only on what the page says", "statement": "Formatting gives the same text for all pages with the same content, wherever the elements stood in the source and in whatever order attributes were stored; in particular for equal pages.", "quantifier": "every two pages with the same content, every configuration", "why_tests_cant": "Attributes and table cells live in hash maps whose iteration order differs from run to run.", "anchors": ["vimwiki-core/src/lang/output/vimwiki/mod.rs", "vimwiki-core/src/lang/elements/blocks/code.rs: metadata", "vimwiki-core/src/lang/elements/blocks/inline/links/data.rs: properties", "vimwiki-core/src/lang/elements/blocks/tables.rs: cells"]}
{"id": "C76", "title": "Formatting twice is formatting once", "statement": "Formatting the text of a formatted page does not change it.", "quantifier": "every page", "why_tests_cant": "All documents; printer and parser have to agree.", "anchors": ["vimwiki-core/src/lang/output/vimwiki/mod.rs", "vimwiki-core/src/lang/parsers/vimwiki/mod.rs", "vimwiki-cli/src/subcommand/format.rs"]}
{"id": "C77", "title": "The HTML depends only on what the page says", "statement": "Rendering gives the same HTML for all pages with the same content, wherever the elements stood in the source and in whatever order attributes were stored, so that converting again gives the same files.", "quantifier": "every two pages with the same content, every configuration", "why_tests_cant": "Attributes and table cells live in hash maps whose iteration order differs from run to run.", "anchors": ["vimwiki-core/src/lang/output/html/mod.rs: CodeBlock, write_link, Table"]}
{"id": "C78", "title": "Saved pages are read back", "statement": "What the program saves for a parsed page as JSON is read back as that page, and no beginning of it is read as a page.", "quantifier": "every text, every page parsed from it, every point at which the file may be cut off", "why_tests_cant": "All pages, all strings with characters to be escaped, all depths of nesting.", "anchors": ["vimwiki-cli/src/ast.rs: load_wiki_file", "vimwiki-core/src/lang/elements: Serialize, Deserialize"]}
{"id": "C79", "title": "inspect answers its query for every wiki that can be loaded", "statement": "vimwiki inspect prints, or writes to the given file, the selected parts of all loaded pages as JSON.", "quantifier": "every file system, configuration and query", "why_tests_cant": "All wikis and all kinds of elements on their pages.", "anchors": ["vimwiki-cli/src/subcommand/inspect.rs", "vimwiki-cli/src/ast.rs", "vimwiki-core/src/lang/elements/blocks/definitions.rs: Serialize"]}
{"id": "C80", "title": "Macros take the shared indentation from their text", "statement": "A vimwiki macro drops the blank lines around the text of its literal and takes from the lines between the indentation they share; the raw macros keep these lines as they are.", "quantifier": "every literal in every literal form, every layout of lines", "why_tests_cant": "All indentations, also with blank lines, tabs and white space of several bytes.", "anchors": ["vimwiki_macros/src/utils.rs: input_to_string"]}
{"id": "C81", "title": "The literal of a macro denotes the text it denotes in Rust", "statement": "The text a macro parses is the value of its literal: it does not depend on the form of the literal (plain, raw, byte), and escapes mean what they mean in Rust.", "quantifier": "every literal", "why_tests_cant": "All texts between the quotation marks and all literal forms.", "anchors": ["vimwiki_macros/src/utils.rs: input_to_string"]}
{"id": "C82", "title": "A macro gives the page that parsing its text gives", "statement": "The value of vimwiki_page! is equal to the page parsed from the same text at run time, with every element at the same place.", "quantifier": "every text and page", "why_tests_cant": "All pages: the tree is taken apart into code and put together again.", "anchors": ["vimwiki_macros/src/lib.rs", "vimwiki_macros/src/tokens"]}
{"id": "C83", "title": "Format macros put the arguments where format! would", "statement": "In the format macros every placeholder, empty, numbered or named, with or without a specification, is replaced by the argument it asks for, other text stays, and a missing argument is an error.", "quantifier": "every format string, every arguments", "why_tests_cant": "All mixtures of placeholders; positions are renumbered for each text.", "anchors": ["vimwiki_macros/src/formatter.rs"]}
{"id": "C84", "title": "Arguments of a format macro are text and do not change the structure", "statement": "The page of a format macro has the elements of the page its literal describes, at the same places; only texts differ, and empty placeholders take the arguments in the order of the texts.", "quantifier": "every page, every arguments", "why_tests_cant": "All arguments, also with markup, and all places in a page where text can stand.", "anchors": ["vimwiki_macros/src/tokens", "vimwiki_macros/src/formatter.rs"]}
{"id": "C85", "title": "The value of a format macro is determined by literal and arguments", "statement": "Building the same program twice gives the same page: which argument goes where does not depend on the order in which hash maps yield table cells and attributes.", "quantifier": "every page and every iteration order of its maps", "why_tests_cant": "The iteration order of hash maps differs from build to build.", "anchors": ["vimwiki_macros/src/tokens/elements/blocks/tables.rs", "vimwiki_macros/src/tokens/utils.rs: tokenize_hashmap"]}
{"id": "C86", "title": "Walking through a page visits every element once", "statement": "The descendants of a page, as children of children, are all its elements at every depth, each as often as it occurs, level by level in the order of the text.", "quantifier": "every text that parses as a page", "why_tests_cant": "All nestings of elements; the walk is a loop over a growing queue.", "anchors": ["vimwiki-core/src/lang/elements: IntoChildren", "vimwiki-wasm/src/elements.rs: impl_iter"]}
{"id": "C87", "title": "A position in the text belongs to one chain of elements", "statement": "Of two elements whose regions contain the same position one is inside the other, and a visible byte is in exactly one block, so an element can be looked up by the place of the cursor.", "quantifier": "every text, every position, every pair of elements", "why_tests_cant": "All pairs of elements in all pages.", "anchors": ["vimwiki-core/src/lang/elements/utils/region.rs: contains", "vimwiki-core/src/lang/parsers/vimwiki"]}
{"id": "C88", "title": "A region made from a range contains exactly the positions of the range", "statement": "Region::from a range, inclusive or not, contains the positions the range contains, for all usize values, and is empty exactly if the range is.", "quantifier": "every range over usize and every position", "why_tests_cant": "2^192 combinations; the interesting ones are at the largest values.", "anchors": ["vimwiki-core/src/lang/elements/utils/region.rs"]}
{"id": "C89", "title": "Parsing a text as one element agrees with parsing it as a page", "statement": "Parsing a text as a block, or as a certain kind of block, gives the element the text is as a page, at the same place, and fails if the text is anything else.", "quantifier": "every text and every kind of element", "why_tests_cant": "All texts, and each of the entry points against the page parser.", "anchors": ["vimwiki-core/src/lang/mod.rs: impl_from_language", "vimwiki-core/src/lang/parsers/vimwiki/mod.rs"]}
{"id": "C90", "title": "--include selects the wikis it names", "statement": "A filter that is a number matches the wiki with that index and no other, any other filter the wikis with that name, and every wiki is matched by its name. (Which wikis a run then processes is C54.)", "quantifier": "every filter text, every wiki name and index", "why_tests_cant": "All texts, also numbers with signs, leading zeros and beyond usize.", "anchors": ["vimwiki-cli/src/opt.rs: IndexOrName", "vimwiki-cli/src/ast.rs"]}
{"id": "C91", "title": "Dates pass between JavaScript and vimwiki unchanged", "statement": "The date of a placeholder is the date written on the page, and a diary link made for a JavaScript date is a link for that date.", "quantifier": "every date of the Gregorian calendar", "why_tests_cant": "All dates, including leap days and ends of months.", "anchors": ["vimwiki-wasm/src/elements.rs: Placeholder::date, Link::new_diary_link"]}
{"id": "C92", "title": "The description given to a link from JavaScript is its text", "statement": "Link constructors keep the description given as the text of the link, and fail only if the address is not a URI reference.", "quantifier": "every address and description", "why_tests_cant": "All strings; descriptions are first tried as URI references.", "anchors": ["vimwiki-wasm/src/elements.rs: Link"]}
{"id": "C93", "title": "A table made from JavaScript has its cells where they were given", "statement": "The cell at row r and column c of a table made from a matrix is the entry at row r and column c of the matrix.", "quantifier": "every matrix, also ragged and with entries that are no cells", "why_tests_cant": "All shapes of the matrix.", "anchors": ["vimwiki-wasm/src/elements.rs: Table::new"]}
{"id": "C94", "title": "Comments and definitions seen from JavaScript keep their text and parts", "statement": "A comment made from a text gives the text and its lines back, and the definitions of a term can be told apart.", "quantifier": "every text and every definition list", "why_tests_cant": "All texts, white space of every kind, any number of definitions.", "anchors": ["vimwiki-wasm/src/elements.rs: Comment, DefinitionList::get_def"]}
{"id": "C95", "title": "Every page can be turned into a JavaScript value", "statement": "to_js gives the value that the JSON of the page describes and never panics.", "quantifier": "every page", "why_tests_cant": "All kinds of elements at every depth.", "anchors": ["vimwiki-wasm/src/elements.rs: to_js", "vimwiki-core/src/lang/elements/blocks/definitions.rs: Serialize"]}
{"id": "C96", "title": "Cells given to a table from JavaScript can be used again", "statement": "Making a table from Cell objects reads them: the same object can be given at several places and to several tables, and memory is never used after it was freed.", "quantifier": "every matrix of objects and every state of the memory", "why_tests_cant": "Use after free is silent; whether it shows depends on the allocator.", "anchors": ["vimwiki-wasm/src/utils.rs: cast_value", "vimwiki-wasm/src/elements.rs: Table::new"]}
{"id": "C97", "title": "The exit status says how far a run got", "statement": "Status 1 means that the configuration or a path could not be read and nothing was touched, 2 that the wikis could not be loaded and only the cache was touched, 0 that the subcommand did its work.", "quantifier": "every file system, configuration and subcommand", "why_tests_cant": "All ways in which loading can fail, at every file.", "anchors": ["vimwiki-cli/src/lib.rs: run", "vimwiki-cli/src/subcommand/serve.rs"]}
{"id": "C98", "title": "A page reads the same with Unix and with Windows line ends", "statement": "Two texts with the same lines, each ended by a newline or by a carriage return and a newline, parse to elements with the same content whose blocks begin on the same lines; the formatter prints the same text for both, and the HTML is the same where links and code blocks have at most one attribute.", "quantifier": "every text, also with both kinds of line ends mixed, in which carriage returns stand only before newlines", "why_tests_cant": "Line ends are looked for in several dozen places, by parsers that are nested, repeated and tried in turn.", "anchors": ["vimwiki-core/src/lang/parsers/utils/character.rs: end_of_line_or_input", "vimwiki-core/src/lang/parsers/utils/line.rs: any_line", "vimwiki-core/src/lang/parsers/vimwiki/blocks"]}
{"id": "C99", "title": "Blocks do not depend on what stands before them", "statement": "The text from where a block begins, read alone, gives that block and all later ones, each element as far from the beginning as it was from that block; after two different beginnings at whose end a block begins, a text gives the same blocks; blank lines in front of a text move its elements and change nothing else, so it is printed as the same text and gives the same HTML where links and code blocks have at most one attribute.", "quantifier": "every text that parses and every block of it; every text and any number of blank lines", "why_tests_cant": "The parsers look back at what has been read (for the beginning of a line and of a word) and share state between blocks; texts and beginnings are unlimited.", "anchors": ["vimwiki-core/src/lang/parsers/vimwiki/mod.rs: page", "vimwiki-core/src/lang/parsers/vimwiki/blocks/mod.rs: top_level_block_element", "vimwiki-core/src/lang/parsers/utils/line.rs: beginning_of_line, blank_line", "vimwiki-core/src/lang/parsers/span.rs: as_consumed"]}
{"id": "C100", "title": "A missing newline at the end of the file does not matter", "statement": "A text whose last line is not ended, and the same text with a newline after it, parse to blocks with the same content that begin at the same places, or reading both panics; a carriage return and a newline can be added as well when carriage returns stand only before newlines; the formatter prints the same text for both, and the HTML is the same where links and code blocks have at most one attribute.", "quantifier": "every text that is empty or whose last byte is neither a newline nor a carriage return", "why_tests_cant": "The end of the text can fall inside every kind of block and element, and each parser tests for it in its own way.", "anchors": ["vimwiki-core/src/lang/parsers/utils/character.rs: end_of_line_or_input", "vimwiki-core/src/lang/parsers/utils/bytes.rs: take_line_until, take_until_end_of_line_or_input", "vimwiki-core/src/lang/parsers/vimwiki/blocks"]}
{"id": "C101", "title": "The report of the timekeeper tells what was called", "statement": "With --timekeeper the report of a run has one line for each kind of parser that returned during that run, with the number of its calls and the sum of their times, the largest average first and in fitting units; without the option nothing is recorded, and neither the order in which threads record nor an earlier run of the same process changes the entries.", "quantifier": "every tree of parser calls, also ones that fail or panic, every interleaving and every sequence of runs", "why_tests_cant": "Times and hash map order differ from run to run; calls are nested and unlimited.", "anchors": ["vimwiki-core/src/timekeeper.rs: context, print_report", "vimwiki-cli/src/lib.rs: run"]}
{"id": "C102", "title": "The text of a parse error says where and what", "statement": "A displayed error has two lines for itself and for each error behind it: the context with the 1-based line and column of the place, and the rest of that line up to a hundred characters; for alternatives the error of the one that got furthest is shown.", "quantifier": "every chain of errors at character boundaries of a UTF-8 text and every list of alternatives", "why_tests_cant": "Places, characters of several bytes, line ends and nesting in every combination.", "anchors": ["vimwiki-core/src/lang/parsers/errors.rs: fmt, or, add_context, append"]}
{"id": "C103", "title": "Properties given to a link from JavaScript are those read back", "statement": "A transclusion link made from JavaScript with an object has each property whose value is a string under its name with that value, and no others; asking for one property and listing all of them agree.", "quantifier": "every URI, description, object of properties and name", "why_tests_cant": "Names and values are any strings of JavaScript, also ones that are not valid Unicode; a hash map stands between.", "anchors": ["vimwiki-wasm/src/elements.rs: new_transclusion_link, properties, get_property"]}
