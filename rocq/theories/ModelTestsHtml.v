(** The unit tests of /repo/vimwiki-core/src/lang/output/html/mod.rs:1356-3097
    run against the model, by hand: where a test builds an element, the text
    that is read as this element is rendered.  They test the transcription and
    prove nothing about it.  Left out: the tests of server-side highlighting,
    which is a parameter, and those of an empty table and an empty definition,
    which no text is read as. *)
From Verif Require Import Base ModelSpan ModelComb ModelAst ModelInline ModelBlock ModelOracle ModelPath ModelHtml.

(** mod.rs:1292-1343 [test_html_config], [add_wiki], [add_wiki_with_name]. *)
Definition test_wiki (dir : string) (name : option str) : wiki :=
  Wiki [CRoot; CNorm (bs "wiki"); CNorm (bs dir)] [CRoot; CNorm (bs "html"); CNorm (bs dir)] name
    (bs "style.css") (bs "wiki") [CNorm (bs "diary")].
Definition test_config (ignore comments : bool) (toc : string) : html_config :=
  HtmlConfig
    (PathsConfig [test_wiki "wiki" None; test_wiki "wiki2" (Some (bs "my-wiki"))] (Some 0)
       [CRoot; CNorm (bs "wiki"); CNorm (bs "wiki"); CNorm (bs "test.wiki")])
    [CRoot] (bs toc) ignore comments false (bs "%content%") [CRoot].
Definition renders_in (cfg : html_config) (lines expected : list string) : bool :=
  match parse_page rfc_uri_parse ymd_parse (concat (map (fun s => bs s ++ [b_nl]) lines)) with
  | Ok _ p =>
      match to_html_string (map to_lower) (fun x => x) (fun _ _ => None) rfc_uri_parse rfc_fragment cfg p with
      | HOk o => str_eqb o (concat (map (fun s => bs s ++ [b_nl]) expected))
      | _ => false
      end
  | _ => false
  end.
Definition renders : list string -> list string -> bool := renders_in (test_config true false "Contents").
Definition with_comments : list string -> list string -> bool := renders_in (test_config true true "Contents").

Local Open Scope string_scope.

Example html_blocks : forallb (fun b : bool => b) [
  renders ["paragraph 1"; ""; "paragraph 2"] ["<p>paragraph 1</p>"; "<p>paragraph 2</p>"];
  renders ["> line1"; "> line2"; "> "; "> line3"] ["<blockquote>"; "<p>line1 line2</p>"; "<p>line3</p>"; "</blockquote>"];
  renders ["> line1"; "> line2"; "> line3"] ["<blockquote>"; "line1"; "line2"; "line3"; "</blockquote>"];
  renders ["> <test1>"; "> <test2>"; "> <test3>"]
    ["<blockquote>"; "&lt;test1&gt;"; "&lt;test2&gt;"; "&lt;test3&gt;"; "</blockquote>"];
  renders ["> <test1>"; "> <test2>"; "> "; "> <test3>"]
    ["<blockquote>"; "<p>&lt;test1&gt; &lt;test2&gt;</p>"; "<p>&lt;test3&gt;</p>"; "</blockquote>"];
  renders ["term1:: def1"] ["<dl>"; "<dt>term1</dt>"; "<dd>def1</dd>"; "</dl>"];
  renders ["term1:: def1"; ":: def2"] ["<dl>"; "<dt>term1</dt>"; "<dd>def1</dd>"; "<dd>def2</dd>"; "</dl>"];
  renders ["----"] ["<hr />"];
  renders ["{{$"; "some lines"; "of math"; "}}$"] ["\["; "some lines"; "of math"; "\]"];
  renders ["{{$%test environment%"; "some lines"; "of math"; "}}$"]
    ["\begin{test environment}"; "some lines"; "of math"; "\end{test environment}"];
  renders ["{{{"; "some lines"; "of code"; "}}}"] ["<pre><code>some lines"; "of code</code></pre>"];
  renders ["{{{"; "<test>"; "}}}"] ["<pre><code>&lt;test&gt;</code></pre>"];
  renders ["some text"; "and more text"] ["<p>some text and more text</p>"];
  renders_in (test_config false false "Contents") ["some text"; "and more text"] ["<p>some text<br />and more text</p>"]
  ] = true.
Proof. vm_compute. reflexivity. Qed.

Example html_headers : forallb (fun b : bool => b) [
  renders ["=== some header ==="] ["<h3 id=""some-header"" class=""header""><a href=""#some-header"">some header</a></h3>"];
  renders ["= Contents ="] ["<div class=""toc""><h1 id=""contents"">Contents</h1></div>"];
  renders ["= h1 ="; "== h2 =="; "=== <test> ==="]
    ["<h1 id=""h1"" class=""header""><a href=""#h1"">h1</a></h1>";
     "<div id=""h1-h2""><h2 id=""h2"" class=""header""><a href=""#h1-h2"">h2</a></h2></div>";
     "<div id=""h1-h2-&lt;test&gt;""><h3 id=""&lt;test&gt;"" class=""header""><a href=""#h1-h2-&lt;test&gt;"">&lt;test&gt;</a></h3></div>"];
  renders_in (test_config true false "<test>") ["= <test> ="] ["<div class=""toc""><h1 id=""&lt;test&gt;"">&lt;test&gt;</h1></div>"];
  renders ["=== some header ==="; "=== some header ==="; "=== some header ==="]
    ["<h3 id=""some-header"" class=""header""><a href=""#some-header"">some header</a></h3>";
     "<h3 id=""some-header-1"" class=""header""><a href=""#some-header-1"">some header</a></h3>";
     "<h3 id=""some-header-2"" class=""header""><a href=""#some-header-2"">some header</a></h3>"];
  renders ["= a ="; "== b =="; "=== some header ==="; "=== some header ==="; "== c =="; "=== some header ==="]
    ["<h1 id=""a"" class=""header""><a href=""#a"">a</a></h1>";
     "<div id=""a-b""><h2 id=""b"" class=""header""><a href=""#a-b"">b</a></h2></div>";
     "<div id=""a-b-some-header""><h3 id=""some-header"" class=""header""><a href=""#a-b-some-header"">some header</a></h3></div>";
     "<div id=""a-b-some-header-1""><h3 id=""some-header-1"" class=""header""><a href=""#a-b-some-header-1"">some header</a></h3></div>";
     "<div id=""a-c""><h2 id=""c"" class=""header""><a href=""#a-c"">c</a></h2></div>";
     "<div id=""a-c-some-header""><h3 id=""some-header-2"" class=""header""><a href=""#a-c-some-header"">some header</a></h3></div>"]
  ] = true.
Proof. vm_compute. reflexivity. Qed.

Example html_lists : forallb (fun b : bool => b) [
  renders ["1. some list item"] ["<ol>"; "<li><p>some list item</p></li>"; "</ol>"];
  renders ["- some list item"] ["<ul>"; "<li><p>some list item</p></li>"; "</ul>"];
  renders ["- [ ] some list item"] ["<ul>"; "<li class=""done0""><p>some list item</p></li>"; "</ul>"];
  renders ["- [.] some list item"] ["<ul>"; "<li class=""done1""><p>some list item</p></li>"; "</ul>"];
  renders ["- [o] some list item"] ["<ul>"; "<li class=""done2""><p>some list item</p></li>"; "</ul>"];
  renders ["- [O] some list item"] ["<ul>"; "<li class=""done3""><p>some list item</p></li>"; "</ul>"];
  renders ["- [X] some list item"] ["<ul>"; "<li class=""done4""><p>some list item</p></li>"; "</ul>"];
  renders ["- [-] some list item"] ["<ul>"; "<li class=""rejected""><p>some list item</p></li>"; "</ul>"]
  ] = true.
Proof. vm_compute. reflexivity. Qed.

Example html_tables : forallb (fun b : bool => b) [
  renders ["|some header|"; "|-|"; "|some text|"]
    ["<table>"; "<thead>"; "<tr>"; "<th>some header</th>"; "</tr>"; "</thead>"; "<tbody>"; "<tr>"; "<td>some text</td>"; "</tr>"; "</tbody>"; "</table>"];
  renders ["|some text|"; "|\/|"; "|-|"]
    ["<table>"; "<thead>"; "<tr>"; "<th rowspan=""2"">some text</th>"; "</tr>"; "</thead>"; "</table>"];
  renders ["|some text|>|"; "|-|-|"]
    ["<table>"; "<thead>"; "<tr>"; "<th colspan=""2"">some text</th>"; "</tr>"; "</thead>"; "</table>"];
  renders ["|some text|"; "|\/|"] ["<table>"; "<tbody>"; "<tr>"; "<td rowspan=""2"">some text</td>"; "</tr>"; "</tbody>"; "</table>"];
  renders ["|some text|>|"] ["<table>"; "<tbody>"; "<tr>"; "<td colspan=""2"">some text</td>"; "</tr>"; "</tbody>"; "</table>"]
  ] = true.
Proof. vm_compute. reflexivity. Qed.

Example html_inline : forallb (fun b : bool => b) [
  renders ["some text"] ["<p>some text</p>"];
  renders ["<some>html</some>"] ["<p>&lt;some&gt;html&lt;/some&gt;</p>"];
  renders ["*some text*"] ["<p><strong id=""some-text"">some text</strong></p>"];
  renders ["*some <test> text*"] ["<p><strong id=""some-&lt;test&gt;-text"">some &lt;test&gt; text</strong></p>"];
  renders ["*bold* *bold*"] ["<p><strong id=""bold"">bold</strong> <strong id=""bold-1"">bold</strong></p>"];
  renders ["= a ="; "== b =="; "*bold* *bold*"; "== c =="; "*bold*"]
    ["<h1 id=""a"" class=""header""><a href=""#a"">a</a></h1>";
     "<div id=""a-b""><h2 id=""b"" class=""header""><a href=""#a-b"">b</a></h2></div>";
     "<p><span id=""a-b-bold""></span><strong id=""bold"">bold</strong> <span id=""a-b-bold-1""></span><strong id=""bold-1"">bold</strong></p>";
     "<div id=""a-c""><h2 id=""c"" class=""header""><a href=""#a-c"">c</a></h2></div>";
     "<p><span id=""a-c-bold""></span><strong id=""bold-2"">bold</strong></p>"];
  renders ["_some text_"] ["<p><em>some text</em></p>"];
  renders ["~~some text~~"] ["<p><del>some text</del></p>"];
  renders ["^some text^"] ["<p><sup><small>some text</small></sup></p>"];
  renders [",,some text,,"] ["<p><sub><small>some text</small></sub></p>"];
  renders ["TODO"] ["<p><span class=""todo"">TODO</span></p>"];
  renders ["DONE"] ["<p>DONE</p>"];
  renders ["`some code`"] ["<p><code>some code</code></p>"];
  renders ["`<test>some code</test>`"] ["<p><code>&lt;test&gt;some code&lt;/test&gt;</code></p>"];
  renders ["$some math$"] ["<p>\(some math\)</p>"];
  renders ["$<test>some math</test>$"] ["<p>\(&lt;test&gt;some math&lt;/test&gt;\)</p>"];
  with_comments ["%%some comment"] ["<!-- some comment -->"];
  with_comments ["%%+some comment"; "on multiple lines+%%"] ["<!--"; "some comment"; "on multiple lines"; "-->"];
  renders ["a %% some comment"] ["<p>a </p>"];
  renders ["a %%+some comment"; "on multiple lines+%%"] ["<p>a </p>"]
  ] = true.
Proof. vm_compute. reflexivity. Qed.

Example html_tags : forallb (fun b : bool => b) [
  renders [":one:two:"] ["<p><span class=""tag"" id=""one"">one</span><span class=""tag"" id=""two"">two</span></p>"];
  renders [":one&:two>:"] ["<p><span class=""tag"" id=""one&amp;"">one&amp;</span><span class=""tag"" id=""two&gt;"">two&gt;</span></p>"];
  renders ["= first-id ="; "=== third-id ==="; ":one:"]
    ["<h1 id=""first-id"" class=""header""><a href=""#first-id"">first-id</a></h1>";
     "<div id=""first-id-third-id""><h3 id=""third-id"" class=""header""><a href=""#first-id-third-id"">third-id</a></h3></div>";
     "<p><span id=""first-id-third-id-one""></span><span class=""tag"" id=""one"">one</span></p>"];
  renders [":one:two:"; ""; ":one:two:"]
    ["<p><span class=""tag"" id=""one"">one</span><span class=""tag"" id=""two"">two</span></p>";
     "<p><span class=""tag"" id=""one-1"">one</span><span class=""tag"" id=""two-1"">two</span></p>"]
  ] = true.
Proof. vm_compute. reflexivity. Qed.

Example html_links : forallb (fun b : bool => b) [
  renders ["[[some/page]]"] ["<p><a href=""some/page.html"">some/page</a></p>"];
  renders ["[[some/page#some-anchor]]"] ["<p><a href=""some/page.html#some-anchor"">some/page#some-anchor</a></p>"];
  renders ["[[#some-anchor]]"] ["<p><a href=""#some-anchor"">#some-anchor</a></p>"];
  renders ["[[some/page|some description]]"] ["<p><a href=""some/page.html"">some description</a></p>"];
  renders ["[[some/page|{{some/img.png}}]]"] ["<p><a href=""some/page.html""><img src=""some/img.png"" /></a></p>"];
  renders ["[[wiki1:some/page]]"] ["<p><a href=""../wiki2/some/page.html"">some/page</a></p>"];
  renders ["[[wiki1:some/page#some-anchor]]"] ["<p><a href=""../wiki2/some/page.html#some-anchor"">some/page#some-anchor</a></p>"];
  renders ["[[wiki1:some/page|some description]]"] ["<p><a href=""../wiki2/some/page.html"">some description</a></p>"];
  renders ["[[wiki1:some/page|{{some/img.png}}]]"] ["<p><a href=""../wiki2/some/page.html""><img src=""some/img.png"" /></a></p>"];
  renders ["[[wn.my-wiki:some/page]]"] ["<p><a href=""../wiki2/some/page.html"">some/page</a></p>"];
  renders ["[[wn.my-wiki:some/page#some-anchor]]"] ["<p><a href=""../wiki2/some/page.html#some-anchor"">some/page#some-anchor</a></p>"];
  renders ["[[wn.my-wiki:some/page|some description]]"] ["<p><a href=""../wiki2/some/page.html"">some description</a></p>"];
  renders ["[[wn.my-wiki:some/page|{{some/img.png}}]]"] ["<p><a href=""../wiki2/some/page.html""><img src=""some/img.png"" /></a></p>"];
  renders ["[[diary:2021-05-27]]"] ["<p><a href=""diary/2021-05-27.html"">diary:2021-05-27</a></p>"];
  renders ["[[diary:2021-05-27|some description]]"] ["<p><a href=""diary/2021-05-27.html"">some description</a></p>"];
  renders ["[[diary:2021-05-27|{{some/img.png}}]]"] ["<p><a href=""diary/2021-05-27.html""><img src=""some/img.png"" /></a></p>"];
  renders ["https://example.com"] ["<p><a href=""https://example.com/"">https://example.com/</a></p>"];
  renders ["{{https://example.com/img.jpg}}"] ["<p><img src=""https://example.com/img.jpg"" /></p>"];
  renders ["{{img/pic.png}}"] ["<p><img src=""img/pic.png"" /></p>"];
  renders ["{{https://example.com/img.jpg|some description}}"] ["<p><img src=""https://example.com/img.jpg"" alt=""some description"" /></p>"];
  renders ["{{https://example.com/img.jpg|some description|key1=""value1"" key2=""value2""}}"]
    ["<p><img src=""https://example.com/img.jpg"" alt=""some description"" key1=""value1"" key2=""value2"" /></p>"];
  renders ["{{https://example.com/img.jpg?a=b&c=d|<test>some description</test>|key1=""<test>value1</test>""}}"]
    ["<p><img src=""https://example.com/img.jpg?a=b&c=d"" alt=""&lt;test&gt;some description&lt;/test&gt;"" key1=""&lt;test&gt;value1&lt;/test&gt;"" /></p>"]
  ] = true.
Proof. vm_compute. reflexivity. Qed.
