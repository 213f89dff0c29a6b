(** Tests of /repo run against the model.  They test the transcription and prove
    nothing about it; generated by tools/gen_tests.py.

    - The unit tests of vimwiki-core/src/lang/parsers/vimwiki that have the
      form "this parser fails on this text" or "this parser reads this text
      and leaves that".
    - The pages of vimwiki-core/tests/output with the vimwiki and HTML text
      they become. *)
From Verif Require Import Base ModelSpan ModelComb ModelAst ModelInline ModelBlock ModelOracle ModelPath ModelVimwiki ModelHtml.

Definition fails {A} (p : parser A) (s : string) : bool := match p (span_of (bs s)) with Err => true | _ => false end.
Definition reads {A} (p : parser A) (s : string) : bool := match p (span_of (bs s)) with Ok _ _ => true | _ => false end.
Definition leaves {A} (p : parser A) (s t : string) : bool :=
  match p (span_of (bs s)) with Ok r _ => str_eqb (remaining r) (bs t) | _ => false end.
Definition page_of (s : string) : option page :=
  match parse_page rfc_uri_parse ymd_parse (bs s) with Ok _ p => Some p | _ => None end.
(** Roman numerals up to three. *)
Definition few_roman (lower : bool) (n : Z) : str := repeat (if lower then x69 else x49) (Z.to_nat n).
Definition formats (s t : string) : bool :=
  match page_of s with
  | Some p => match page_to_vimwiki default_vw few_roman (fun x => x) p with Some o => str_eqb o (bs t) | None => false end
  | None => false
  end.
(** The configuration of [Default::default()], with a wiki at the root. *)
Definition a_wiki : wiki := Wiki [CRoot] [CRoot] None (bs "style.css") (bs "wiki") [CNorm (bs "diary")].
Definition a_config : html_config :=
  HtmlConfig (PathsConfig [a_wiki] (Some 0) [CRoot; CNorm (bs "page.wiki")]) [CRoot] (bs "Contents")
    true false false (bs "%content%") [CRoot].
Definition renders (s t : string) : bool :=
  match page_of s with
  | Some p =>
      match to_html_string (map to_lower) (fun x => x) (fun _ _ => None) rfc_uri_parse rfc_fragment a_config p with
      | HOk o => str_eqb o (bs t)
      | _ => false
      end
  | None => false
  end.

(** blocks/blockquotes.rs *)
Example tests_blockquotes : forallb (fun b : bool => b) [
  (* blockquote_should_fail_if_not_starting_with_correct_prefix *)
  fails p_blockquote "< Wrong prefix
< on these lines
";
  (* blockquote_should_fail_if_not_enough_spaces_at_beginning *)
  fails p_blockquote "   Only using
   three spaces
regular line starts here and is needed for indoc to have a baseline
";
  (* blockquote_should_fail_if_using_indented_format_and_line_is_empty *)
  fails p_blockquote "        ";
  (* blockquote_should_stop_if_using_indented_format_and_reach_blank_line *)
  reads p_blockquote "    This is a blockquote
    that is using four spaces

    This is another blockquote
    that is using four spaces
regular line starts here and is needed for indoc to have a baseline
";
  (* blockquote_should_consume_blank_lines_if_using_angle_prefix *)
  reads p_blockquote "> This is a blockquote
> that is using prefixes

> This is another blockquote
> that is using prefixes

this is a regular line
> This is a third blockquote
> that is using prefixes
"] = true.
Proof. vm_compute. reflexivity. Qed.

(** blocks/code.rs *)
Example tests_code : forallb (fun b : bool => b) [
  (* code_block_should_fail_if_does_not_have_starting_line *)
  fails p_code_block "some code
}}}
";
  (* code_block_should_fail_if_starting_block_not_on_own_line *)
  fails p_code_block "{{{some code
}}}
";
  (* code_block_should_fail_if_does_not_have_ending_line *)
  fails p_code_block "{{{
some code
";
  (* code_block_should_fail_if_ending_block_not_on_own_line *)
  fails p_code_block "{{{
some code}}}
";
  (* code_block_should_support_having_no_lines *)
  leaves p_code_block "{{{
}}}
" "";
  (* code_block_should_support_lang_shorthand *)
  leaves p_code_block "{{{c++
some code
}}}
" "";
  (* code_block_should_parse_all_lines_between *)
  leaves p_code_block "{{{
Tyger! Tyger! burning bright
 In the forests of the night,
  What immortal hand or eye
   Could frame thy fearful symmetry?
In what distant deeps or skies
 Burnt the fire of thine eyes?
  On what wings dare he aspire?
   What the hand dare sieze the fire?
}}}
" "";
  (* code_block_should_support_indentation *)
  leaves p_code_block "    {{{
one line
two line
}}}
" "";
  (* code_block_should_support_indentation *)
  leaves p_code_block "{{{
one line
two line
    }}}
" "";
  (* code_block_should_support_indentation *)
  leaves p_code_block "    {{{
one line
two line
    }}}
" "";
  (* code_block_should_support_indentation *)
  leaves p_code_block "    {{{
one line
        two line
  three line
    four line
     five line
    }}}
" ""] = true.
Proof. vm_compute. reflexivity. Qed.

(** blocks/definitions.rs *)
Example tests_definitions : forallb (fun b : bool => b) [
  (* definition_list_should_fail_if_input_empty *)
  fails (p_definition_list rfc_uri_parse ymd_parse) "";
  (* definition_list_should_fail_if_not_starting_with_a_term *)
  fails (p_definition_list rfc_uri_parse ymd_parse) "no term here";
  (* definition_list_should_fail_if_starting_with_a_definition *)
  fails (p_definition_list rfc_uri_parse ymd_parse) ":: some definition";
  (* definition_list_should_fail_if_no_space_between_term_and_def_sep *)
  fails (p_definition_list rfc_uri_parse ymd_parse) "term::some definition";
  (* definition_list_should_fail_if_one_term_and_no_defs *)
  fails (p_definition_list rfc_uri_parse ymd_parse) "term::";
  (* definition_list_should_fail_if_multiple_terms_and_no_defs *)
  fails (p_definition_list rfc_uri_parse ymd_parse) "term 1::
term 2::
";
  (* definition_list_should_fail_if_term_is_commented_out *)
  fails (p_definition_list rfc_uri_parse ymd_parse) "%%term1:: def1";
  (* definition_list_should_fail_if_term_is_commented_out *)
  fails (p_definition_list rfc_uri_parse ymd_parse) "%%+term1:: def1+%%";
  (* definition_list_should_properly_adjust_depth_for_children *)
  reads (p_definition_list rfc_uri_parse ymd_parse) "term1:: def1";
  (* definition_list_should_succeed_if_one_term_and_inline_def *)
  leaves (p_definition_list rfc_uri_parse ymd_parse) "term 1:: def 1" "";
  (* definition_list_should_succeed_if_one_term_and_def_on_next_line *)
  leaves (p_definition_list rfc_uri_parse ymd_parse) "term 1::
:: def 1
" "";
  (* definition_list_should_succeed_if_one_term_and_multiple_line_defs *)
  leaves (p_definition_list rfc_uri_parse ymd_parse) "term 1::
:: def 1
:: def 2
" "";
  (* definition_list_should_succeed_if_multiple_terms_and_inline_defs *)
  leaves (p_definition_list rfc_uri_parse ymd_parse) "term 1:: def 1
term 2:: def 2
" "";
  (* definition_list_should_succeed_if_multiple_terms_and_line_defs *)
  leaves (p_definition_list rfc_uri_parse ymd_parse) "term 1::
:: def 1
term 2::
:: def 2
" "";
  (* definition_list_should_succeed_if_multiple_terms_and_mixed_defs *)
  leaves (p_definition_list rfc_uri_parse ymd_parse) "term 1:: def 1
:: def 2
term 2:: def 3
:: def 4
" ""] = true.
Proof. vm_compute. reflexivity. Qed.

(** blocks/dividers.rs *)
Example tests_dividers : forallb (fun b : bool => b) [
  (* divider_should_fail_if_not_at_beginning_of_line *)
  fails p_divider " ----";
  (* divider_should_fail_if_not_at_least_four_hyphens *)
  fails p_divider "---";
  (* divider_should_fail_if_not_only_hyphens_within_line *)
  fails p_divider "----a";
  (* divider_should_succeed_if_four_hyphens_at_start_of_line *)
  leaves p_divider "----" "";
  (* divider_should_succeed_if_more_than_four_hyphens_at_start_of_line *)
  leaves p_divider "-----" "";
  (* divider_should_consume_end_of_line *)
  leaves p_divider "----
abcd" "abcd"] = true.
Proof. vm_compute. reflexivity. Qed.

(** blocks/headers.rs *)
Example tests_headers : forallb (fun b : bool => b) [
  (* header_should_parse_level_1_header *)
  leaves (p_header rfc_uri_parse ymd_parse) "=test header=" "";
  (* header_should_parse_level_1_header *)
  leaves (p_header rfc_uri_parse ymd_parse) " =test header= " "";
  (* header_should_parse_level_2_header *)
  leaves (p_header rfc_uri_parse ymd_parse) "==test header==" "";
  (* header_should_parse_level_2_header *)
  leaves (p_header rfc_uri_parse ymd_parse) " ==test header== " "";
  (* header_should_parse_level_3_header *)
  leaves (p_header rfc_uri_parse ymd_parse) "===test header===" "";
  (* header_should_parse_level_3_header *)
  leaves (p_header rfc_uri_parse ymd_parse) " ===test header=== " "";
  (* header_should_parse_level_4_header *)
  leaves (p_header rfc_uri_parse ymd_parse) "====test header====" "";
  (* header_should_parse_level_4_header *)
  leaves (p_header rfc_uri_parse ymd_parse) " ====test header==== " "";
  (* header_should_parse_level_5_header *)
  leaves (p_header rfc_uri_parse ymd_parse) "=====test header=====" "";
  (* header_should_parse_level_5_header *)
  leaves (p_header rfc_uri_parse ymd_parse) " =====test header===== " "";
  (* header_should_parse_level_6_header *)
  leaves (p_header rfc_uri_parse ymd_parse) "======test header======" "";
  (* header_should_parse_level_6_header *)
  leaves (p_header rfc_uri_parse ymd_parse) " ======test header====== " "";
  (* header_should_fail_if_level_greater_than_6 *)
  fails (p_header rfc_uri_parse ymd_parse) "=======test header=======";
  (* header_should_fail_if_level_greater_than_6 *)
  fails (p_header rfc_uri_parse ymd_parse) " =======test header======= ";
  (* header_should_trim_whitespace_around_text *)
  leaves (p_header rfc_uri_parse ymd_parse) "= test header	=" "";
  (* header_should_support_equals_signs_within_content *)
  leaves (p_header rfc_uri_parse ymd_parse) "=test =header=" ""] = true.
Proof. vm_compute. reflexivity. Qed.

(** blocks/inline/code.rs *)
Example tests_inline_code : forallb (fun b : bool => b) [
  (* code_inline_should_fail_if_input_empty *)
  fails code_inline "";
  (* code_inline_should_fail_if_does_not_start_with_backtick *)
  fails code_inline "some code`";
  (* code_inline_should_fail_if_does_not_end_with_backtick *)
  fails code_inline "`some code";
  (* code_inline_should_fail_if_end_is_on_next_line *)
  fails code_inline "`some code
`
";
  (* code_inline_should_consume_all_text_between_backticks_as_code *)
  leaves code_inline "`some code`" ""] = true.
Proof. vm_compute. reflexivity. Qed.

(** blocks/inline/comments.rs *)
Example tests_inline_comments : forallb (fun b : bool => b) [
  (* comment_should_fail_if_no_input *)
  fails p_comment "";
  (* comment_should_fail_if_only_one_percent_sign *)
  fails p_comment "% comment";
  (* comment_should_fail_if_only_one_percent_sign *)
  fails p_comment "%+ comment +%";
  (* comment_should_parse_line_comment *)
  leaves p_comment "%% comment" "";
  (* comment_should_parse_line_comment *)
  leaves p_comment "%% comment
next line" "
next line";
  (* comment_should_parse_line_comment *)
  leaves p_comment "%% comment
next line" "
next line";
  (* comment_should_parse_multi_line_comment *)
  leaves p_comment "%%+ comment +%%" "";
  (* comment_should_parse_multi_line_comment *)
  leaves p_comment "%%+ comment
next line +%%" "";
  (* comment_should_parse_multi_line_comment *)
  leaves p_comment "%%+ comment
next line +%%" "";
  (* comment_should_parse_multi_line_comment *)
  leaves p_comment "%%+ comment
next line +%%after" "after";
  (* comment_should_parse_multi_line_comment *)
  leaves p_comment "%%+ comment
next line +%%after" "after";
  (* comment_should_parse_multi_line_comment *)
  leaves p_comment "%%+ comment
+%%" "";
  (* comment_should_parse_multi_line_comment *)
  leaves p_comment "%%+ comment
+%%" ""] = true.
Proof. vm_compute. reflexivity. Qed.

(** blocks/inline/links/diary.rs *)
Example tests_inline_links_diary : forallb (fun b : bool => b) [
  (* diary_link_should_fail_if_not_using_diary_scheme *)
  fails (diary_link rfc_uri_parse ymd_parse) "[[notdiary:2012-03-05]]";
  (* diary_link_should_fail_if_not_using_correct_date_format *)
  fails (diary_link rfc_uri_parse ymd_parse) "[[diary:2012/03/05]]";
  (* diary_link_should_support_diary_scheme *)
  leaves (diary_link rfc_uri_parse ymd_parse) "[[diary:2012-03-05]]" "";
  (* diary_link_should_support_a_description *)
  leaves (diary_link rfc_uri_parse ymd_parse) "[[diary:2012-03-05|some description]]" "";
  (* diary_link_should_support_an_anchor *)
  leaves (diary_link rfc_uri_parse ymd_parse) "[[diary:2012-03-05#Tomorrow]]" ""] = true.
Proof. vm_compute. reflexivity. Qed.

(** blocks/inline/links/interwiki.rs *)
Example tests_inline_links_interwiki : forallb (fun b : bool => b) [
  (* indexed_interwiki_link_should_support_numbered_prefix *)
  leaves (indexed_interwiki_link rfc_uri_parse) "[[wiki1:This is a link]]" "";
  (* indexed_interwiki_link_should_support_anchors *)
  leaves (indexed_interwiki_link rfc_uri_parse) "[[wiki1:This is a link source#anchor]]" "";
  (* named_interwiki_link_should_support_named_wikis *)
  leaves (named_interwiki_link rfc_uri_parse) "[[wn.My Name:This is a link]]" "";
  (* named_interwiki_link_should_support_anchors *)
  leaves (named_interwiki_link rfc_uri_parse) "[[wn.My Name:This is a link#anchor]]" ""] = true.
Proof. vm_compute. reflexivity. Qed.

(** blocks/inline/links/mod.rs *)
Example tests_inline_links_mod : forallb (fun b : bool => b) [
  (* link_should_return_diary_link_where_appropriate *)
  reads (p_link rfc_uri_parse ymd_parse) "[[diary:2012-03-05]]";
  (* link_should_return_indexed_interwiki_link_where_appropriate *)
  reads (p_link rfc_uri_parse ymd_parse) "[[wiki1:Some Link]]";
  (* link_should_return_named_interwiki_link_where_appropriate *)
  reads (p_link rfc_uri_parse ymd_parse) "[[wn.My Name:Some Link]]";
  (* link_should_return_wiki_link_where_appropriate *)
  reads (p_link rfc_uri_parse ymd_parse) "[[Some Link]]";
  (* link_should_return_raw_link_where_appropriate *)
  reads (p_link rfc_uri_parse ymd_parse) "https://example.com";
  (* link_should_return_transclusion_link_where_appropriate *)
  reads (p_link rfc_uri_parse ymd_parse) "{{https://example.com/img.jpg}}";
  (* link_properties_should_parse_multiple_properties *)
  reads link_properties "|key1=""value1"" key2=""value2"""] = true.
Proof. vm_compute. reflexivity. Qed.

(** blocks/inline/links/raw.rs *)
Example tests_inline_links_raw : forallb (fun b : bool => b) [
  (* raw_link_should_support_http_scheme *)
  leaves (raw_link rfc_uri_parse) "http://example.com" "";
  (* raw_link_should_support_https_scheme *)
  leaves (raw_link rfc_uri_parse) "https://example.com" "";
  (* raw_link_should_support_ftp_scheme *)
  leaves (raw_link rfc_uri_parse) "ftp://example.com" "";
  (* raw_link_should_support_file_scheme *)
  leaves (raw_link rfc_uri_parse) "file:///some/path" "";
  (* raw_link_should_support_local_scheme *)
  leaves (raw_link rfc_uri_parse) "local:///some/path" "";
  (* raw_link_should_support_mailto_scheme *)
  leaves (raw_link rfc_uri_parse) "mailto:person@example.com" ""] = true.
Proof. vm_compute. reflexivity. Qed.

(** blocks/inline/links/transclusion.rs *)
Example tests_inline_links_transclusion : forallb (fun b : bool => b) [
  (* transclusion_link_should_support_local_relative_uri *)
  leaves (p_transclusion rfc_uri_parse) "{{file:../../images/vimwiki_logo.png}}" "";
  (* transclusion_link_should_support_local_absolute_uri *)
  leaves (p_transclusion rfc_uri_parse) "{{file:/some/path/images/vimwiki_logo.png}}" "";
  (* transclusion_link_should_support_alternate_text *)
  leaves (p_transclusion rfc_uri_parse) "{{http://vimwiki.googlecode.com/hg/images/vimwiki_logo.png|Vimwiki}}" "";
  (* transclusion_link_should_support_alternate_text_and_style *)
  leaves (p_transclusion rfc_uri_parse) "{{http://vimwiki.googlecode.com/vimwiki_logo.png|cool stuff|style=""width:150px;height:120px;""}}" ""] = true.
Proof. vm_compute. reflexivity. Qed.

(** blocks/inline/links/wiki.rs *)
Example tests_inline_links_wiki : forallb (fun b : bool => b) [
  (* wiki_link_should_fail_if_does_not_have_proper_prefix *)
  fails (wiki_link rfc_uri_parse) "link]]";
  (* wiki_link_should_fail_if_does_not_have_proper_suffix *)
  fails (wiki_link rfc_uri_parse) "[[link";
  (* wiki_link_should_not_consume_across_lines *)
  fails (wiki_link rfc_uri_parse) "[[link
]]";
  (* wiki_link_should_support_plain_link *)
  leaves (wiki_link rfc_uri_parse) "[[This is a link]]" "";
  (* wiki_link_should_support_sources_in_subdirectories *)
  leaves (wiki_link rfc_uri_parse) "[[projects/Important Project 1]]" "";
  (* wiki_link_should_support_relative_sources *)
  leaves (wiki_link rfc_uri_parse) "[[../index]]" "";
  (* wiki_link_should_support_absolute_source_for_wiki_root *)
  leaves (wiki_link rfc_uri_parse) "[[/index]]" "";
  (* wiki_link_should_support_source_being_subdirectory *)
  leaves (wiki_link rfc_uri_parse) "[[a subdirectory/|Other files]]" "";
  (* wiki_link_should_support_an_anchor *)
  leaves (wiki_link rfc_uri_parse) "[[Todo List#Tomorrow]]" "";
  (* wiki_link_should_support_multiple_anchors *)
  leaves (wiki_link rfc_uri_parse) "[[Todo List#Tomorrow#Later]]" "";
  (* wiki_link_should_support_an_anchor_and_a_description *)
  leaves (wiki_link rfc_uri_parse) "[[Todo List#Tomorrow|Tasks for tomorrow]]" "";
  (* wiki_link_should_support_anchor_only *)
  leaves (wiki_link rfc_uri_parse) "[[#Tomorrow]]" ""] = true.
Proof. vm_compute. reflexivity. Qed.

(** blocks/inline/math.rs *)
Example tests_inline_math : forallb (fun b : bool => b) [
  (* math_inline_should_fail_if_input_empty *)
  fails math_inline "";
  (* math_inline_should_fail_if_does_not_start_with_dollar_sign *)
  fails math_inline "\sum_i a_i^2 = 1$";
  (* math_inline_should_fail_if_does_not_end_with_dollar_sign *)
  fails math_inline "$\sum_i a_i^2 = 1";
  (* math_inline_should_fail_if_end_is_on_next_line *)
  fails math_inline "$\sum_i a_i^2 = 1
$
";
  (* math_inline_should_consume_all_text_between_dollar_signs_as_formula *)
  leaves math_inline "$\sum_i a_i^2 = 1$" ""] = true.
Proof. vm_compute. reflexivity. Qed.

(** blocks/inline/mod.rs *)
Example tests_inline_mod : forallb (fun b : bool => b) [
  (* inline_element_container_should_prioritize_comments_over_bold_text *)
  leaves (inline_element_container rfc_uri_parse ymd_parse) "*not %%bold*" "";
  (* inline_element_container_should_prioritize_comments_over_italic_text *)
  leaves (inline_element_container rfc_uri_parse ymd_parse) "_not %%italic_" "";
  (* inline_element_container_should_prioritize_comments_over_math *)
  leaves (inline_element_container rfc_uri_parse ymd_parse) "$not %%math$" "";
  (* inline_element_container_should_prioritize_comments_over_code *)
  leaves (inline_element_container rfc_uri_parse ymd_parse) "`not %%code`" "";
  (* inline_element_container_should_prioritize_comments_over_link *)
  leaves (inline_element_container rfc_uri_parse ymd_parse) "[[link|not %%link]]" "";
  (* inline_element_container_should_prioritize_comments_over_keyword *)
  leaves (inline_element_container rfc_uri_parse ymd_parse) "TO%%+DO+%%DO" "";
  (* inline_element_container_should_prioritize_comments_over_text *)
  leaves (inline_element_container rfc_uri_parse ymd_parse) "some text%%comment" "";
  (* inline_element_container_should_prioritize_comments_over_text *)
  leaves (inline_element_container rfc_uri_parse ymd_parse) "some%%+comment+%%text" ""] = true.
Proof. vm_compute. reflexivity. Qed.

(** blocks/inline/tags.rs *)
Example tests_inline_tags : forallb (fun b : bool => b) [
  (* tags_should_fail_if_input_empty *)
  fails tags "";
  (* tags_should_fail_if_not_starting_with_colon *)
  fails tags "tag-example:";
  (* tags_should_fail_if_not_ending_with_colon *)
  fails tags ":tag-example";
  (* tags_should_fail_if_only_comprised_of_colons *)
  fails tags "::";
  (* tags_should_yield_a_single_tag_if_one_pair_of_colons_with_text *)
  leaves tags ":tag-example:" "";
  (* tags_should_yield_multiple_tags_if_many_colons_with_text *)
  leaves tags ":tag-one:tag-two:" ""] = true.
Proof. vm_compute. reflexivity. Qed.

(** blocks/inline/typefaces.rs *)
Example tests_inline_typefaces : forallb (fun b : bool => b) [
  (* text_should_fail_if_input_empty *)
  fails (p_text rfc_uri_parse ymd_parse) "";
  (* text_should_fail_if_given_a_raw_link_immediately *)
  fails (p_text rfc_uri_parse ymd_parse) "https://example.com/";
  (* text_should_consume_until_encountering_inline_math *)
  leaves (p_text rfc_uri_parse ymd_parse) "abc123$math$" "$math$";
  (* text_should_consume_until_encountering_a_tag *)
  leaves (p_text rfc_uri_parse ymd_parse) "abc123 :tag:" ":tag:";
  (* text_should_consume_until_encountering_a_wiki_link *)
  leaves (p_text rfc_uri_parse ymd_parse) "abc123[[some link]]" "[[some link]]";
  (* text_should_consume_until_encountering_a_transclusion_link *)
  leaves (p_text rfc_uri_parse ymd_parse) "abc123{{some link}}" "{{some link}}";
  (* text_should_consume_until_encountering_a_raw_link *)
  leaves (p_text rfc_uri_parse ymd_parse) "abc123 https://example.com/" "https://example.com/";
  (* text_should_consume_until_encountering_decorated_text *)
  leaves (p_text rfc_uri_parse ymd_parse) "abc123*bold text*" "*bold text*";
  (* text_should_consume_until_encountering_a_keyword *)
  leaves (p_text rfc_uri_parse ymd_parse) "abc123 TODO" "TODO";
  (* text_should_consume_until_reaching_end_of_line *)
  leaves (p_text rfc_uri_parse ymd_parse) "abc123
some other text" "
some other text";
  (* text_should_consume_until_reaching_end_of_line *)
  leaves (p_text rfc_uri_parse ymd_parse) "abc123
some other text" "
some other text";
  (* text_should_consume_until_reaching_end_of_input *)
  leaves (p_text rfc_uri_parse ymd_parse) "abc123" "";
  (* decorated_text_should_fail_if_input_empty *)
  fails (p_decorated rfc_uri_parse ymd_parse) "";
  (* decorated_text_should_fail_if_start_and_end_separated_by_newline *)
  fails (p_decorated rfc_uri_parse ymd_parse) "*bold text
*";
  (* decorated_text_should_support_bold *)
  leaves (p_decorated rfc_uri_parse ymd_parse) "*bold text*" "";
  (* decorated_text_should_support_italic *)
  leaves (p_decorated rfc_uri_parse ymd_parse) "_italic text_" "";
  (* decorated_text_should_support_strikeout *)
  leaves (p_decorated rfc_uri_parse ymd_parse) "~~strikeout text~~" "";
  (* decorated_text_should_support_superscript *)
  leaves (p_decorated rfc_uri_parse ymd_parse) "^superscript text^" "";
  (* decorated_text_should_support_subscript *)
  leaves (p_decorated rfc_uri_parse ymd_parse) ",,subscript text,," "";
  (* decorated_text_should_support_links *)
  leaves (p_decorated rfc_uri_parse ymd_parse) "*[[some link]]*" "";
  (* decorated_text_should_support_keywords *)
  leaves (p_decorated rfc_uri_parse ymd_parse) "*TODO*" "";
  (* decorated_text_should_support_nested_decorated_text *)
  leaves (p_decorated rfc_uri_parse ymd_parse) "*bold _italic_*" "";
  (* keyword_should_fail_if_input_empty *)
  fails p_keyword "";
  (* keyword_should_fail_if_not_a_matching_identifier *)
  fails p_keyword "NOTHING";
  (* keyword_should_consume_specific_keywords *)
  reads p_keyword "DONE";
  (* keyword_should_consume_specific_keywords *)
  reads p_keyword "FIXME";
  (* keyword_should_consume_specific_keywords *)
  reads p_keyword "TODO"] = true.
Proof. vm_compute. reflexivity. Qed.

(** blocks/lists.rs *)
Example tests_lists : forallb (fun b : bool => b) [
  (* list_should_fail_if_no_proper_start_to_single_list_item *)
  fails (p_list rfc_uri_parse ymd_parse) "| some item with bad prefix";
  (* list_should_fail_if_no_space_after_single_list_item_prefix *)
  fails (p_list rfc_uri_parse ymd_parse) "-some item with no space";
  (* list_should_fail_if_no_space_after_single_list_item_prefix *)
  fails (p_list rfc_uri_parse ymd_parse) "*some item with no space";
  (* list_should_fail_if_no_space_after_single_list_item_prefix *)
  fails (p_list rfc_uri_parse ymd_parse) "1.some item with no space";
  (* list_should_fail_if_no_space_after_single_list_item_prefix *)
  fails (p_list rfc_uri_parse ymd_parse) "1)some item with no space";
  (* list_should_fail_if_no_space_after_single_list_item_prefix *)
  fails (p_list rfc_uri_parse ymd_parse) "a)some item with no space";
  (* list_should_fail_if_no_space_after_single_list_item_prefix *)
  fails (p_list rfc_uri_parse ymd_parse) "A)some item with no space";
  (* list_should_fail_if_no_space_after_single_list_item_prefix *)
  fails (p_list rfc_uri_parse ymd_parse) "i)some item with no space";
  (* list_should_fail_if_no_space_after_single_list_item_prefix *)
  fails (p_list rfc_uri_parse ymd_parse) "I)some item with no space";
  (* list_should_fail_if_no_space_after_single_list_item_prefix *)
  fails (p_list rfc_uri_parse ymd_parse) "#some item with no space";
  (* list_should_properly_adjust_depth_for_list_items_and_contents *)
  reads (p_list rfc_uri_parse ymd_parse) "- list item 1
  has extra content
  - sublist item 1
    has content
  - sublist item 2
  on multiple lines
- list item 2
";
  (* list_should_succeed_for_single_unordered_hyphen_item *)
  leaves (p_list rfc_uri_parse ymd_parse) "- list item 1" "";
  (* list_should_succeed_for_single_unordered_asterisk_item *)
  leaves (p_list rfc_uri_parse ymd_parse) "* list item 1" "";
  (* list_should_succeed_for_single_ordered_pound_item *)
  leaves (p_list rfc_uri_parse ymd_parse) "# list item 1" "";
  (* list_should_succeed_for_single_ordered_number_period_item *)
  leaves (p_list rfc_uri_parse ymd_parse) "1. list item 1" "";
  (* list_should_succeed_for_single_ordered_number_paren_item *)
  leaves (p_list rfc_uri_parse ymd_parse) "1) list item 1" "";
  (* list_should_succeed_for_single_ordered_lowercase_alphabet_paren_item *)
  leaves (p_list rfc_uri_parse ymd_parse) "a) list item 1" "";
  (* list_should_succeed_for_single_ordered_uppercase_alphabet_paren_item *)
  leaves (p_list rfc_uri_parse ymd_parse) "A) list item 1" "";
  (* list_should_succeed_for_single_ordered_lowercase_roman_paren_item *)
  leaves (p_list rfc_uri_parse ymd_parse) "i) list item 1" "";
  (* list_should_succeed_for_single_ordered_uppercase_roman_paren_item *)
  leaves (p_list rfc_uri_parse ymd_parse) "I) list item 1" "";
  (* list_should_support_list_item_with_paragraph_on_same_line *)
  leaves (p_list rfc_uri_parse ymd_parse) "- list *item 1* has a [[link]] with :tag: and $formula$ is DONE
" "";
  (* list_should_support_list_item_with_paragraph_on_multiple_lines *)
  leaves (p_list rfc_uri_parse ymd_parse) "- list item 1
  has extra content
  on multiple lines
not a list item
" "not a list item
";
  (* list_should_support_list_item_with_blockquote *)
  leaves (p_list rfc_uri_parse ymd_parse) "- list item
  > some blockquote
" "";
  (* list_should_support_list_item_with_code_block *)
  leaves (p_list rfc_uri_parse ymd_parse) "- list item
  {{{
  some code
  }}}
" "";
  (* list_should_support_list_item_with_definition_list *)
  leaves (p_list rfc_uri_parse ymd_parse) "- list item
  term:: def
" "";
  (* list_should_support_list_item_with_math_block *)
  leaves (p_list rfc_uri_parse ymd_parse) "- list item
  {{$
  some math
  }}$
" "";
  (* list_should_support_list_item_with_table *)
  leaves (p_list rfc_uri_parse ymd_parse) "- list item
  |cell|
" "";
  (* list_should_not_support_list_item_with_divider *)
  leaves (p_list rfc_uri_parse ymd_parse) "- list item
  ----
" "";
  (* list_should_support_list_item_with_header *)
  leaves (p_list rfc_uri_parse ymd_parse) "- list item
  =header=
" "  =header=
";
  (* list_should_not_support_list_item_with_placeholder *)
  leaves (p_list rfc_uri_parse ymd_parse) "- list item
  %title my title
" "";
  (* list_should_support_list_item_with_sublists *)
  leaves (p_list rfc_uri_parse ymd_parse) "- list item 1
  - sublist item 1
  - sublist item 2
not a list item
" "not a list item
";
  (* list_should_support_list_item_with_content_separated_by_sublist *)
  leaves (p_list rfc_uri_parse ymd_parse) "- list item 1
  has extra content
  - sublist item 1
    has content
  - sublist item 2
  on multiple lines
not a list item
" "not a list item
";
  (* list_should_properly_read_through_different_types_that_are_nested *)
  leaves (p_list rfc_uri_parse ymd_parse) "- nested
 * list
  1. of
   a) content
    second line of a
   second line of 1
  second line of bullet
 second line of hyphen
* different list item
" "";
  (* list_should_support_todo_list_items *)
  leaves (p_list rfc_uri_parse ymd_parse) "- [ ] list item 1
- [.] list item 2
- [o] list item 3
- [O] list item 4
- [X] list item 5
- [-] list item 6
" ""] = true.
Proof. vm_compute. reflexivity. Qed.

(** blocks/math.rs *)
Example tests_math : forallb (fun b : bool => b) [
  (* math_block_should_fail_if_input_empty *)
  fails p_math_block "";
  (* math_block_should_fail_if_does_not_start_with_dedicated_line *)
  fails p_math_block "    \sum_i a_i^2
}}$
";
  (* math_block_should_fail_if_does_not_end_with_dedicated_line *)
  fails p_math_block "{{$
    \sum_i a_i^2
";
  (* math_block_should_support_zero_lines_between_as_formula *)
  leaves p_math_block "{{$
}}$
" "";
  (* math_block_should_consume_all_lines_between_as_formula *)
  leaves p_math_block "{{$
\sum_i a_i^2
=
1
}}$
" "";
  (* math_block_should_fail_if_environment_delimiters_not_used_correctly *)
  fails p_math_block "{{$%align
\sum_i a_i^2
=
1
}}$
";
  (* math_block_should_fail_if_environment_delimiters_not_used_correctly *)
  fails p_math_block "{{$align%
\sum_i a_i^2
=
1
}}$
";
  (* math_block_should_fail_if_environment_delimiters_not_used_correctly *)
  fails p_math_block "{{$%%
\sum_i a_i^2
=
1
}}$
";
  (* math_block_should_accept_optional_environment_specifier *)
  leaves p_math_block "{{$%align%
\sum_i a_i^2 &= 1 + 1 \\
&= 2.
}}$
" "";
  (* math_block_should_support_indentation *)
  leaves p_math_block "    {{$
one line
two line
}}$
" "";
  (* math_block_should_support_indentation *)
  leaves p_math_block "{{$
one line
two line
    }}$
" "";
  (* math_block_should_support_indentation *)
  leaves p_math_block "    {{$
one line
two line
    }}$
" "";
  (* math_block_should_support_indentation *)
  leaves p_math_block "    {{$
one line
        two line
  three line
    four line
     five line
    }}$
" ""] = true.
Proof. vm_compute. reflexivity. Qed.

(** blocks/paragraphs.rs *)
Example tests_paragraphs : forallb (fun b : bool => b) [
  (* paragraph_should_fail_if_on_blank_line *)
  fails (p_paragraph rfc_uri_parse ymd_parse) " ";
  (* paragraph_should_parse_single_line *)
  leaves (p_paragraph rfc_uri_parse ymd_parse) "Some paragraph with *decorations*, [[links]], $math$, and more
" "";
  (* paragraph_should_parse_multiple_lines *)
  leaves (p_paragraph rfc_uri_parse ymd_parse) "Some paragraph with *decorations*,
[[links]], $math$, and more
" "";
  (* paragraph_should_stop_at_a_blank_line *)
  leaves (p_paragraph rfc_uri_parse ymd_parse) "Some paragraph with *decorations*,
[[links]], $math$, and more

And this would be a second paragraph
" "
And this would be a second paragraph
";
  (* paragraph_should_stop_after_encountering_a_list *)
  leaves (p_paragraph rfc_uri_parse ymd_parse) "some paragraph
of text
- list item
" "- list item
";
  (* paragraph_should_stop_after_encountering_a_header *)
  leaves (p_paragraph rfc_uri_parse ymd_parse) "some paragraph
of text
= header =
" "= header =
";
  (* paragraph_should_stop_after_encountering_a_definition_list *)
  leaves (p_paragraph rfc_uri_parse ymd_parse) "some paragraph
of text
term:: def
" "term:: def
";
  (* paragraph_should_stop_after_encountering_a_table *)
  leaves (p_paragraph rfc_uri_parse ymd_parse) "some paragraph
of text
|cell|
" "|cell|
";
  (* paragraph_should_stop_after_encountering_a_code_block *)
  leaves (p_paragraph rfc_uri_parse ymd_parse) "some paragraph
of text
{{{
code block
}}}
" "{{{
code block
}}}
";
  (* paragraph_should_stop_after_encountering_a_math_block *)
  leaves (p_paragraph rfc_uri_parse ymd_parse) "some paragraph
of text
{{$
math block
}}$
" "{{$
math block
}}$
";
  (* paragraph_should_stop_after_encountering_a_blank_line *)
  leaves (p_paragraph rfc_uri_parse ymd_parse) "some paragraph
of text

more text
" "
more text
";
  (* paragraph_should_stop_after_encountering_an_arrow_blockquote *)
  leaves (p_paragraph rfc_uri_parse ymd_parse) "some paragraph
of text
> some blockquote
" "> some blockquote
";
  (* paragraph_should_stop_after_encountering_a_divider *)
  leaves (p_paragraph rfc_uri_parse ymd_parse) "some paragraph
of text
----
" "----
";
  (* paragraph_should_stop_after_encountering_a_placeholder *)
  leaves (p_paragraph rfc_uri_parse ymd_parse) "some paragraph
of text
%title some title
" "%title some title
"] = true.
Proof. vm_compute. reflexivity. Qed.

(** blocks/placeholders.rs *)
Example tests_placeholders : forallb (fun b : bool => b) [
  (* placeholder_should_fail_if_input_empty *)
  fails (p_placeholder ymd_parse) "";
  (* placeholder_should_fail_title_with_no_text *)
  fails (p_placeholder ymd_parse) "%title";
  (* placeholder_should_succeed_if_title_with_text_input *)
  leaves (p_placeholder ymd_parse) "%title some title" "";
  (* placeholder_should_fail_if_nohtml_with_text *)
  fails (p_placeholder ymd_parse) "%nohtml something";
  (* placeholder_should_succeed_if_nohtml_with_no_text_input *)
  leaves (p_placeholder ymd_parse) "%nohtml" "";
  (* placeholder_should_fail_if_template_with_no_text *)
  fails (p_placeholder ymd_parse) "%template";
  (* placeholder_should_succeed_if_template_with_text_input *)
  leaves (p_placeholder ymd_parse) "%template my_template" "";
  (* placeholder_should_fail_if_date_with_no_text *)
  fails (p_placeholder ymd_parse) "%date";
  (* placeholder_should_fail_if_date_with_non_date_input *)
  fails (p_placeholder ymd_parse) "%date something";
  (* placeholder_should_succeed_if_date_with_date_input *)
  leaves (p_placeholder ymd_parse) "%date 2012-03-05" "";
  (* placeholder_fallback_should_fail_if_double_percent_at_start *)
  fails (p_placeholder ymd_parse) "%%other something else";
  (* placeholder_fallback_should_fail_if_no_space_between_name_and_value *)
  fails (p_placeholder ymd_parse) "%othervalue";
  (* placeholder_fallback_should_fail_if_no_name_provided *)
  fails (p_placeholder ymd_parse) "% value";
  (* placeholder_fallback_should_fail_if_percent_found_in_name *)
  fails (p_placeholder ymd_parse) "%oth%er value";
  (* placeholder_fallback_should_fail_if_percent_found_at_end_of_name *)
  fails (p_placeholder ymd_parse) "%other% value";
  (* placeholder_fallback_should_fail_if_no_value_after_name *)
  fails (p_placeholder ymd_parse) "%other"] = true.
Proof. vm_compute. reflexivity. Qed.

(** blocks/tables.rs *)
Example tests_tables : forallb (fun b : bool => b) [
  (* table_should_fail_if_input_empty *)
  fails (p_table rfc_uri_parse ymd_parse) "";
  (* table_should_fail_if_not_starting_with_pipe *)
  fails (p_table rfc_uri_parse ymd_parse) "name|age|
|---|---|
|abc|012|
|def|045|
";
  (* table_should_fail_if_not_ending_with_pipe *)
  fails (p_table rfc_uri_parse ymd_parse) "|name|age
|---|---|
|abc|012|
|def|045|
";
  (* table_should_fail_if_no_content_row_found *)
  fails (p_table rfc_uri_parse ymd_parse) "|---------|";
  (* table_should_properly_adjust_depth_for_cells *)
  reads (p_table rfc_uri_parse ymd_parse) "|one|two|
|---|---|
|abc|def|
|ghi|jkl|
";
  (* table_should_succeed_if_uneven_columns_found *)
  leaves (p_table rfc_uri_parse ymd_parse) "|name| age|
|----|----|
|abcd|1111|
|efgh|2222|3333|
|ijkl|4444|
" "";
  (* table_should_support_single_row_with_single_cell *)
  leaves (p_table rfc_uri_parse ymd_parse) "|value1|" "";
  (* table_should_support_single_row_with_multiple_cells *)
  leaves (p_table rfc_uri_parse ymd_parse) "|value1|value2|" "";
  (* table_should_support_multiple_rows_with_single_cells *)
  leaves (p_table rfc_uri_parse ymd_parse) "|value1|
|value2|
" "";
  (* table_should_support_multiple_rows_with_multiple_cells *)
  leaves (p_table rfc_uri_parse ymd_parse) "|value1|value2|
|value3|value4|
" "";
  (* table_should_support_row_and_divider_with_single_cell *)
  leaves (p_table rfc_uri_parse ymd_parse) "|value1|
|------|
" "";
  (* table_should_support_row_and_divider_with_multiple_cells *)
  leaves (p_table rfc_uri_parse ymd_parse) "|value1|value2|
|------|------|
" "";
  (* table_should_support_row_and_divider_with_different_column_alignments *)
  leaves (p_table rfc_uri_parse ymd_parse) "|value1|value2|value3|value4|
|------|:-----|-----:|:----:|
" "";
  (* table_should_support_span_left_cell *)
  leaves (p_table rfc_uri_parse ymd_parse) "|>|" "";
  (* table_should_support_span_above_cell *)
  leaves (p_table rfc_uri_parse ymd_parse) "|\/|" "";
  (* table_should_support_centering_through_indentation *)
  leaves (p_table rfc_uri_parse ymd_parse) " |value1|" "";
  (* table_should_support_inline_content_in_cells *)
  leaves (p_table rfc_uri_parse ymd_parse) "|some text|" ""] = true.
Proof. vm_compute. reflexivity. Qed.

(** tests/output/vimwiki/blockquotes *)
Example vimwiki_blockquotes : formats
"    this is a blockquote
    that will get translated
    to have > by default

> this is another blockquote
> using arrows
"
"> this is a blockquote
> that will get translated
> to have > by default

> this is another blockquote
> using arrows
" = true.
Proof. vm_compute. reflexivity. Qed.

(** tests/output/vimwiki/code *)
Example vimwiki_code : formats
"{{{
regular text
}}}
{{{
    indented code
}}}
    {{{
  more
    code
    }}}
{{{class=""python"" style=""color:blue""
for i in range(1, 5):
    print(i)
}}}
"
"{{{
regular text
}}}

{{{
    indented code
}}}

{{{
more
code
}}}

{{{class=""python"" style=""color:blue""
for i in range(1, 5):
    print(i)
}}}
" = true.
Proof. vm_compute. reflexivity. Qed.

(** tests/output/vimwiki/headers *)
Example vimwiki_headers : formats
"=header1=
paragraph 1
on multiple lines
==header2==
paragraph 2
on multiple lines
===header3===
paragraph 3
on multiple lines
====header4====
paragraph 4
on multiple lines
=====header5=====
paragraph 5
on multiple lines
======header6======
paragraph 5
on multiple lines
 =centered header=
paragraph 6
on multiple lines
"
"= header1 =

paragraph 1
on multiple lines

== header2 ==

paragraph 2
on multiple lines

=== header3 ===

paragraph 3
on multiple lines

==== header4 ====

paragraph 4
on multiple lines

===== header5 =====

paragraph 5
on multiple lines

====== header6 ======

paragraph 5
on multiple lines

    = centered header =

paragraph 6
on multiple lines
" = true.
Proof. vm_compute. reflexivity. Qed.

(** tests/output/vimwiki/links *)
Example vimwiki_links : formats
"== external links ==

[[http://google.com|_Google_ search engine]]

http://pandoc.org

ftp://vim.org

[[http://google.com]]

[[mailto:info@example.org|email me]]

mailto:hello@bye.com

== internal links ==

[[This is a link]]

[[This is a link source|Description of the link]]

[[projects/Important Project 1]]

[[../index]]

[[a subdirectory/|Other files]]

[[#tag-one|try me to test tag anchors]]

[[#block quotes|try me to test header anchors]]

[[#strong|try me to test strong anchors]]

[[Todo List#Tomorrow|Tasks for tomorrow]]

[[diary:2017-05-01]]

[[file:../assets/data.csv|Important Data]]

=== links with thumbnails ===

[[http://www.google.com|{{./movie.jpg}}]]

== images ==

{{file:./lalune.jpg}}

{{http://vimwiki.googlecode.com/hg/images/vimwiki_logo.png|Vimwiki}}

{{local:./movie.jpg}}

=== image with attributes ===
{{lalune.jpg|_cool stuff_|style=""width:150px;height:120px;""}}

{{nonexist.jpg|*Non-existing* image|class=""center flow blabla"" style=""font-color:red""}}

{{lalune.jpg|_cool stuff_|style=""width:150px;height:120px;""|anything in this segment is ignored}}
"
"== external links ==

[[http://google.com/|_Google_ search engine]]

http://pandoc.org/

ftp://vim.org/

[[http://google.com/]]

[[mailto:info@example.org|email me]]

mailto:hello@bye.com

== internal links ==

[[This is a link]]

[[This is a link source|Description of the link]]

[[projects/Important Project 1]]

[[../index]]

[[a subdirectory/|Other files]]

[[#tag-one|try me to test tag anchors]]

[[#block quotes|try me to test header anchors]]

[[#strong|try me to test strong anchors]]

[[Todo List#Tomorrow|Tasks for tomorrow]]

[[diary:2017-05-01]]

[[file:../assets/data.csv|Important Data]]

=== links with thumbnails ===

[[http://www.google.com/|{{./movie.jpg}}]]

== images ==

{{file:./lalune.jpg}}

{{http://vimwiki.googlecode.com/hg/images/vimwiki_logo.png|Vimwiki}}

{{local:./movie.jpg}}

=== image with attributes ===

{{lalune.jpg|_cool stuff_|style=""width:150px;height:120px;""}}

{{nonexist.jpg|*Non-existing* image|class=""center flow blabla"" style=""font-color:red""}}

{{lalune.jpg|_cool stuff_|style=""width:150px;height:120px;""}}
" = true.
Proof. vm_compute. reflexivity. Qed.

(** tests/output/vimwiki/lists *)
Example vimwiki_lists : formats
"1. one
2. two
3. three

4. one
5. two
6. three

* one
* two
* three

- nested
 * list
  1. of
   a. content
    second line of a
   second line of 1
  second line of bullet
 second line of hyphen
* different list item

- math
 {{$
 math block
 }}$
- code
 {{{
 code block
 }}}
- table
 | table    | containing |
 | multiple | cells      |
- definition list
 term::
 :: def
- blockquote
 > some blockquote

III) self adjusting
i) list items
X) by understanding order

- item 1
 with more content
But this is a new paragraph
"
"1. one
2. two
3. three

1. one
2. two
3. three

* one
* two
* three

- nested
    * list
        1. of
            a. content
                second line of a
            second line of 1
        second line of bullet
    second line of hyphen
- different list item

- math
    {{$
    math block
    }}$
- code
    {{{
    code block
    }}}
- table
    | table    | containing |
    | multiple | cells      |
- definition list
    term:: def
- blockquote
    > some blockquote

I) self adjusting
II) list items
III) by understanding order

- item 1
    with more content

But this is a new paragraph
" = true.
Proof. vm_compute. reflexivity. Qed.

(** tests/output/vimwiki/paragraphs *)
Example vimwiki_paragraphs : formats
"Some paragraph with *bold* text, _italic_ text, ~~strikethrough~~, `code`,
$math$, [[links]], %%+inline
comments+%%
and %% line comments.
"
"Some paragraph with *bold* text, _italic_ text, ~~strikethrough~~, `code`,
$math$, [[links]], %%+ inline
comments +%%
and %% line comments.
" = true.
Proof. vm_compute. reflexivity. Qed.

(** tests/output/html/lists-with-hard-line-wrap *)
Example html_lists_with_hard_line_wrap : renders
"- first item
- second item, with
  embedded hard line wrapping
"
"<ul>
<li><p>first item</p></li>
<li><p>second item, with embedded hard line wrapping</p></li>
</ul>
" = true.
Proof. vm_compute. reflexivity. Qed.

(** tests/output/html/standalone-anchor-link *)
Example html_standalone_anchor_link : renders
"[[#stuff]]
"
"<p><a href=""#stuff"">#stuff</a></p>
" = true.
Proof. vm_compute. reflexivity. Qed.
