{
 "C01": {
  "note": "For every input and every behaviour of the URI and date libraries; a panic (C02) is the only alternative to a page."
 },
 "C02": {
  "note": "False of the code: three witnesses (raw URL ended by markup, diary link with a space in its anchor, code block line cut inside a wide space). Proved: these are the only panic sites; UTF-8 pages without them are always parsed."
 },
 "C05": {
  "note": "False for the pair and bundle nodes of definition lists (witness). Proved for everything else: nesting, order, no overlap."
 },
 "C08": {
  "note": "False for the end of the pair region of definition lists (witness). Proved for all other regions and all starts."
 },
 "C09": {
  "note": "Parsers that begin in the middle of inline text need inline_start (what their callers establish)."
 },
 "C18": {
  "note": "Page level and, in PropertiesSpan, the parser in both directions."
 },
 "C26": {
  "note": "A line comment in a header, table cell or term ends with it (witness). Proved: it is the last element of its container or ends at a line break; content verbatim; multi line comments end at their first closing marker."
 },
 "C27": {
  "note": "Inline code can begin with its delimiter (witness: three backticks). Proved: only there; all other parts hold; for math all parts hold."
 },
 "C58": {
  "note": "False for the pair nodes of definition lists, always depth 0 (witness). Proved for everything else."
 },
 "C60": {
  "note": "False: inline code, math and tags inside decorated text are dropped with everything after them (witness). Proved: what is kept starts after the delimiter and has no gaps."
 },
 "C11": {
  "note": "False unless the span starts the input (witness). Proved: exactly which position is reported."
 },
 "C12": {
  "note": "False: the first byte is not looked at (witness). Proved: exact characterisation, and that whitespace is never rejected."
 },
 "C13": {
  "note": "take_line_until with a pattern of three bytes or more can cross a line ending (witness; the parsers only use one- and two-byte patterns, for which it is proved). The other variants are proved for all patterns."
 },
 "C30": {
  "note": "False of Table::cells on ragged tables, which the parser produces (witness: `|a|` then `|b|c|` yields 1 of 3 cells). Proved: rectangular tables for cells; row by row iteration for all parsed tables."
 },
 "C31": {
  "note": "Column spans: all parsed tables. Row spans are 0 below a short row (witness); proved when every row above has the column."
 },
 "C32": {
  "note": "For all positions below 2^64, that is for all values of the type."
 },
 "C33": {
  "note": "False from position 2^32 on (32 bit truncation, witness). Proved below: letters only, order as in dictionaries by length, no label skipped."
 },
 "C34": {
  "note": "Progress as exact rationals where the code uses f32."
 },
 "C36": {
  "note": "Text of a term as a relation that ignores markup; the first such item is returned, and none if no term reads so."
 },
 "C37": {
  "note": "Display form: all parts without '#'. URI fragment: parts without \"%23\"; false otherwise and for from_uri_fragment of the encoded form (witnesses)."
 },
 "C38": {
  "note": "False when the text contains a percent escape (witness: 100%41). Proved for all texts without one."
 },
 "C44": {
  "note": "Total for every input. Pages whose path below the wiki has no '..' go to the same place below the HTML directory; false with '..' (witness)."
 },
 "C45": {
  "note": "Also: the template variable root_path followed by a file name leads to that file at the site root."
 },
 "C46": {
  "note": "Chosen wiki contains the page and none that contains it is deeper; no wiki only if none contains it."
 },
 "C47": {
  "note": "False when the target lies below a path equal to the source file, or is the directory of the source (witnesses). Proved otherwise, for names without escapes."
 },
 "C48": {
  "note": "Resolution as a rewriting relation; leading '..' of a relative path are dropped, which the relation states."
 },
 "C49": {
  "note": "Links are followed like a browser does (escapes decoded). False for page names with a dot, absolute links that start with the wiki's own path, and directory links to another wiki (witnesses). Proved for the other wiki, interwiki, diary, transclusion, raw and remote links, including '..' inside the wiki and percent escapes."
 },
 "C39": {
  "note": "False: number suffixes can collide with texts (witnesses a,a,a-1 and a,a,a-2,a) and links may carry an id property (witness). Proved: the ids are those handed out, one per request; distinct when no request equals another plus a small number."
 },
 "C40": {
  "note": "False after a skipped level (witness a(1), c(3), b(1), d(4) gives b-c-d). Proved, on the output text, for headers at the top level of the page when no level is skipped."
 },
 "C41": {
  "note": "False for code language and metadata, math environment, property names, included comments and the title (witnesses). Proved for pages whose such parts have no markup: all tags and attribute names are the generator's or the page's own property names; texts and values contain no markup; escaping is reversible."
 },
 "C42": {
  "note": "Proved for pages whose unescaped parts have no markup characters (otherwise false, witness), without server side highlighting."
 },
 "C43": {
  "note": "Content: for every template and page. Variables: for templates of literal text and variables when no value but the content contains a percent sign."
 },
 "C64": {
  "note": "For pages whose unescaped parts have no markup characters, without server side highlighting; ids are C39, C40, C66."
 },
 "C65": {
  "note": "All pages and configurations; syntect and uriparse as parameters."
 },
 "C66": {
  "note": "False: deeper headers of a previous section stay in the path (witness c-b-x). Proved for tags in a paragraph of their own when no level is skipped and the latest header is the deepest."
 },
 "C67": {
  "note": "False for texts with capitals or blanks, and for links within the page that name enclosing headers (witnesses). Proved for anchors spelled like the ids."
 },
 "C68": {
  "note": "On the success of rendering; the wiki used when none is active is the page's directory."
 },
 "C69": {
  "note": "False: the placeholder is parsed but ignored by the HTML output (witness); the command line does not look at it either."
 },
 "C70": {
  "note": "False for a title with a marker (witness). Proved when no value but the content contains a percent sign."
 },
 "C50": {
  "note": "Exact layout of every printed table. Every content cell is shown when no row is short; with short rows text is lost (witness)."
 },
 "C51": {
  "note": "A parsed page can be formatted exactly when each of its tables can; for tables without short rows the exact condition is given. False: the document |a|:-| panics (witness)."
 },
 "C53": {
  "note": "For all sequences of operations of the formatter on UTF-8 texts; and exactly what and_trim leaves of the texts written inside it."
 },
 "C54": {
  "note": "False when an index is listed: the list is applied again to the selected wikis with new positions (witness). Proved when the listed wikis are still listed at their new positions, in particular for names only."
 },
 "C55": {
  "note": "For all histories of edits outside the cache, complete runs and crashed runs (a write cut off anywhere). Hypotheses: no SHA-1 collision among the texts that occur; nothing else writes below the cache directory; a prefix of what is saved for a parsed page reads back as the page or not at all, which C55_reads_back proves of the program's own JSON encoding (given that uriparse's and chrono's encodings are read back)."
 },
 "C56": {
  "note": "False: pages are written into an existing cache directory (witness). Proved: the cache directory has no influence, nothing is deleted, and files are written only into an existing cache directory."
 },
 "C57": {
  "note": "Exactly the files not named by a checksum of the loaded data are removed. The loaded data covers every page when every wiki is listed at its position; otherwise fresh cache files are removed (witness)."
 },
 "C71": {
  "note": "All file systems, parsers, printers and failures."
 },
 "C72": {
  "note": "canonicalize is a parameter that does not depend on the texts of files."
 },
 "C73": {
  "note": "False for the document being written (witness: it is left empty). Proved for all others, at every crash point."
 },
 "C74": {
  "note": "When the output directories of the configured wikis and of the default wiki are outside the cache directory; same hypotheses as C55."
 },
 "C35": {
  "note": "Equality is exactly sameness of contents without regions, strict equality sameness of contents with regions, for every equality of URIs described by a normal form; equal elements hash alike if equal URIs do. \"Strict equality implies equality\" is proved when equal URIs are displayed alike or definition lists have no links, and refuted otherwise: definition list values compare by displayed text. The refutation assumes a URI equality that ignores the case of percent-encodings; whether uriparse has it could not be checked here."
 },
 "C52": {
  "note": "False in general: empty lines inside quotations, padding of table cells, code blocks at the start of list items and lettered lists of more than 78 items do not survive (witnesses). Proved for pages of headers, paragraphs, quotations, code and math blocks, dividers, placeholders, nested lists, definition lists and tables whose text is unambiguous, unless the parser panics, which needs one of the three sites of C02 in the printed text. Missing: comments over several lines, links described by a transclusion."
 },
 "C75": {
  "note": "Proved for pages with the same content (all of it, definition lists included) and for pages that are == without definition lists. False for == in general: terms and definitions compare by displayed text (witness: two links with the same description). Also: what the parser returns meets the conditions on pages used here and in C35."
 },
 "C76": {
  "note": "Proved for the pages of C52 (page_fine). False in general: code that begins a list item moves right by four blanks each time, a quotation with an empty line falls apart, link targets are percent-decoded each time (witnesses)."
 },
 "C77": {
  "note": "Proved for pages whose links and code blocks have at most one property or attribute. False otherwise: several attributes are written in the iteration order of a hash map (witness)."
 },
 "C78": {
  "note": "Proved: no beginning of a saved page is read as another page; a saved page is read back exactly when it has no definition list and is nested at most 127 levels; in particular every page with undecorated text and up to 22 list levels. False for definition lists (the list of definitions cannot be flattened, so saving stops there) and for 25 or more list levels (serde_json's recursion limit). Hypotheses: uriparse's and chrono's encodings are read back. serde, serde_with and serde_json are modelled."
 },
 "C79": {
  "note": "Proved when no loaded page has a definition list and the paths are UTF-8; the output is valid JSON. With a definition list on any loaded page inspect fails for every query (witness). jsonpath_lib is a parameter."
 },
 "C80": {
  "note": "Proved: blank lines around the text are dropped, the least indentation of the lines between is taken from all of them (raw: nothing), a text of blank lines is refused. False: an empty line between two lines switches the removal off (witness: a header becomes centered); the raw macros do not use the literal as it is; lines indented with white space characters of different widths make the macro panic."
 },
 "C81": {
  "note": "Proved: the form of the literal does not matter; literals without backslashes denote their text. False with escapes: they reach the parser as written (witness: one list item instead of two)."
 },
 "C82": {
  "note": "Proved: the value is the parsed page with depths set to 0, hence == to it; hypothesis: uriparse reads back the URIs of the page as they are displayed. False for strict equality (depths). The generated token stream is modelled by its value."
 },
 "C83": {
  "note": "Proved for strings of placeholders and text without braces; specifications without references to other arguments. False for doubled braces (witness: does not compile). std::format! and the regular expression are modelled."
 },
 "C84": {
  "note": "Proved: structure and places never depend on the arguments (keys of properties and attributes without braces); success and texts for pages whose texts are format strings as in C83. Texts of tables and attributes come in the order of the hash map, see C85."
 },
 "C85": {
  "note": "Proved for numbered and named placeholders. False for empty placeholders in tables: the order of the hash map decides (witness)."
 },
 "C86": {
  "note": "Proved: all elements visited, level by level; order of the text for pages without tables. False with tables: cells come in the order of the hash map (witness)."
 },
 "C88": {
  "note": "Proved below the largest usize. False there: inclusive ranges and contains overflow and panic (witnesses)."
 },
 "C89": {
  "note": "Proved: the first block of a page starting at offset 0 is what the block parser and the parser of its kind give; conversely for texts beginning with a visible byte; Markdown and Mediawiki always fail. False: what follows the element is ignored, a leading empty line is an error, and a parser of one kind accepts what the page sees as another (witnesses)."
 },
 "C90": {
  "note": "Proved for numbers and for names that are no numbers. False: a wiki whose name is a number cannot be selected by name."
 },
 "C91": {
  "note": "False for every date: placeholders are late by the length of their month (years 100 to 199999), diary links crash in January and on days the month before lacks, and are one month early otherwise."
 },
 "C92": {
  "note": "Proved: kept as text exactly if it is no URI reference; a single word is one (witness). Only new_wiki_link is composed; the other constructors use the same description."
 },
 "C93": {
  "note": "Proved for matrices of cells, also ragged. False if a row has entries that are no cells: later ones move left."
 },
 "C94": {
  "note": "Proved: comments of several lines; a line comment keeps its text iff no white space is at its ends; the definitions of a term are run together (witness)."
 },
 "C95": {
  "note": "Proved: to_js gives the value iff there is no definition list on the page, where it panics (witness)."
 },
 "C96": {
  "note": "Proved: making a table is safe iff no object occurs twice and none was used before, the objects given are gone afterwards, others stay. False: a second use, in the same or a later table, is a use after free. How wasm-bindgen's from_abi takes ownership is modelled, see DESIGN.md."
 },
 "C97": {
  "note": "Proved for status 1 and 2, and for 0 of convert (what convert then has written: C74). False for serve: it ends at once with 0, having touched only the cache."
 },
 "C98": {
  "note": "Proved by running the parsers on both texts side by side. Carriage returns elsewhere are ordinary characters (example). HTML with several attributes: see C77."
 },
 "C99": {
  "note": "Proved by running the parsers in the middle of a text and on its rest side by side. A beginning that does not let a block begin (an unfinished paragraph or list) changes what follows (example). HTML with several attributes: see C77."
 },
 "C100": {
  "note": "Proved by running the parsers on both texts side by side. After a carriage return the newline is part of a line end (example). HTML with several attributes: see C77."
 },
 "C101": {
  "note": "False for a process that runs the program twice: loading that fails returns without switching the timekeeper off or clearing its table, so the next report has these calls too and a run without the option records (C101_runs_refuted). Proved when every earlier run with the option got past loading; table, report, order and units are proved without conditions. Floating point averages and display are parameters."
 },
 "C102": {
  "note": "The text is proved. The claim about alternatives is false: `or` compares the places of the outermost errors, and a context moves that to its beginning, so of alternatives with contexts the last one is shown (C102_furthest_refuted, C102_last). Proved for errors that name no later place behind the outermost. Which errors the parsers build is not modelled."
 },
 "C103": {
  "note": "False for names with lone surrogates: they all become U+FFFD, so two such names are one property (C103_given_refuted). Proved when no name is of this kind; that listing and asking agree is proved for every link whose properties are a map, which C36 shows of parsed ones. The order in which an object lists its entries is a parameter."
 }
}