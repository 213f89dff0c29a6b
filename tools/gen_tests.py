"""Writes rocq/theories/ModelTests.v from the tests in /repo."""
import itertools,re,glob,os,textwrap
base='/repo/vimwiki-core/src/lang/parsers/vimwiki/'
out=[]
STR=r'(?:"((?:[^"\\]|\\.)*)"|r#?"(.*?)"#?|indoc!\s*[\({\[]\s*r?#?"((?:[^"\\]|\\.)*)"#?,?\s*[\)}\]])'
def val(m,i):
    a,b,c=m.group(i),m.group(i+1),m.group(i+2)
    if a is not None:
        a=re.sub(r'\\\n\s*','',a)
        return bytes(a,'utf8').decode('unicode_escape').encode('latin1').decode('utf8') if '\\' in a else a
    if b is not None: return b
    s=c
    if s.startswith('\n'): s=s[1:]
    s=textwrap.dedent(s)
    ls=s.split('\n')
    if ls[-1].strip()=='' : s='\n'.join(ls[:-1])+'\n'
    return s
for f in sorted(glob.glob(base+'**/*.rs',recursive=True)):
    t=open(f).read()
    if 'mod tests' not in t: continue
    t=t[t.index('mod tests'):]
    for m in re.finditer(r'#\[test\]\s*fn (\w+)\(\) \{(.*?)\n    \}\n',t,re.S):
        name,body=m.groups()
        for k in re.finditer(r'assert!\(\s*(\w+)\(Span::from\('+STR+r',?\s*\)\)\s*\.is_err\(',body,re.S):
            out.append((os.path.relpath(f,base),name,k.group(1),val(k,2),'err'))
        for k in re.finditer(r'let input = Span::from\('+STR+r',?\s*\);\s*(?:assert!\(\s*(\w+)\(input\)\s*\.is_err\(|let \((\w+), (?:mut )?\w+\) =\s*(\w+)\(input\)\s*\.(?:unwrap|expect)\([^)]*\);(.{0,80}))',body,re.S):
            if k.group(4): out.append((os.path.relpath(f,base),name,k.group(4),val(k,1),'err'))
            else:
                rem=re.match(r'\s*assert_eq!\(\s*\w+\.as_unsafe_remaining_str\(\),\s*'+STR,body[k.end(6):][body[k.end(6):].index(';')+1:],re.S)
                if rem: out.append((os.path.relpath(f,base),name,k.group(6),val(k,1),'rem',val(rem,1))); continue
                e='ok_empty' if re.search(r'is_empty\(\)',k.group(7)) and k.group(5)!='_' else 'ok'
                out.append((os.path.relpath(f,base),name,k.group(6),val(k,1),e))
        # is_err statements with other forms are skipped

T=out
def q(s): return '"'+s.replace('"','""')+'"'
O="rfc_uri_parse ymd_parse"
# Rust parser name -> the model's parser
M={'list':'p_list '+O,'header':'p_header '+O,'placeholder':'p_placeholder ymd_parse','table':'p_table '+O,'paragraph':'p_paragraph '+O,
'text':'p_text '+O,'definition_list':'p_definition_list '+O,'inline_element_container':'inline_element_container '+O,'decorated_text':'p_decorated '+O,
'code_block':'p_code_block','math_block':'p_math_block','comment':'p_comment','link':'p_link '+O,'raw_link':'raw_link rfc_uri_parse','wiki_link':'wiki_link rfc_uri_parse',
'transclusion_link':'p_transclusion rfc_uri_parse','code_inline':'code_inline','math_inline':'math_inline','tags':'tags','blockquote':'p_blockquote','divider':'p_divider',
'diary_link':'diary_link '+O,'keyword':'p_keyword','indexed_interwiki_link':'indexed_interwiki_link rfc_uri_parse','named_interwiki_link':'named_interwiki_link rfc_uri_parse','link_properties':'link_properties'}
res="""(** Tests of /repo run against the model.  They test the transcription and prove
    nothing about it; generated by tools/gen_tests.py.

    - The unit tests of vimwiki-core/src/lang/parsers/vimwiki that have the
      form "this parser fails on this text" or "this parser reads this text
      and leaves that".
    - The pages of vimwiki-core/tests/output with the vimwiki and HTML text
      they become. *)
From Verif Require Import Base ModelSpan ModelComb ModelAst ModelInline ModelBlock ModelOracle ModelPath ModelVimwiki ModelHtml.

Definition fails {A} (p : parser A) (s : string) : bool := match p (span_of (bs s)) with Err => true | _ => false end.
Definition reads {A} (p : parser A) (s : string) : bool := match p (span_of (bs s)) with Ok _ _ => true | _ => false end.
Definition leaves {A} (p : parser A) (s t : string) : bool :=
  match p (span_of (bs s)) with Ok r _ => str_eqb (remaining r) (bs t) | _ => false end.
Definition page_of (s : string) : option page :=
  match parse_page rfc_uri_parse ymd_parse (bs s) with Ok _ p => Some p | _ => None end.
(** Roman numerals up to three. *)
Definition few_roman (lower : bool) (n : Z) : str := repeat (if lower then x69 else x49) (Z.to_nat n).
Definition formats (s t : string) : bool :=
  match page_of s with
  | Some p => match page_to_vimwiki default_vw few_roman (fun x => x) p with Some o => str_eqb o (bs t) | None => false end
  | None => false
  end.
(** The configuration of [Default::default()], with a wiki at the root. *)
Definition a_wiki : wiki := Wiki [CRoot] [CRoot] None (bs "style.css") (bs "wiki") [CNorm (bs "diary")].
Definition a_config : html_config :=
  HtmlConfig (PathsConfig [a_wiki] (Some 0) [CRoot; CNorm (bs "page.wiki")]) [CRoot] (bs "Contents")
    true false false (bs "%content%") [CRoot].
Definition renders (s t : string) : bool :=
  match page_of s with
  | Some p =>
      match to_html_string (map to_lower) (fun x => x) (fun _ _ => None) rfc_uri_parse rfc_fragment a_config p with
      | HOk o => str_eqb o (bs t)
      | _ => false
      end
  | None => false
  end.
"""
for f,g in itertools.groupby(T,key=lambda o:o[0]):
    nm=f[:-3].replace('blocks/','').replace('/','_')
    rows=[]
    for o in g:
        m=M[o[2]]; m='('+m+')' if ' ' in m else m
        t={'err':'fails','ok':'reads','ok_empty':'leaves','rem':'leaves'}[o[4]]
        a=' '.join([t,m,q(o[3])]+([q('')] if o[4]=='ok_empty' else [q(o[5])] if o[4]=='rem' else []))
        rows.append('  (* %s *)\n  %s'%(o[1],a))
    res+='\n(** %s *)\nExample tests_%s : forallb (fun b : bool => b) [\n'%(f,nm)
    res+=';\n'.join(rows)+'] = true.\nProof. vm_compute. reflexivity. Qed.\n'
for kind,ext,fn in (('vimwiki','.out.wiki','formats'),('html','.out.html','renders')):
    d='/repo/vimwiki-core/tests/output/%s/'%kind
    for f in sorted(glob.glob(d+'*'+ext)):
        nm=os.path.basename(f)[:-len(ext)]
        a=open(d+nm+'.wiki',newline='').read(); b=open(f,newline='').read().replace('\r','')
        res+='\n(** tests/output/%s/%s *)\nExample %s_%s : %s\n%s\n%s = true.\nProof. vm_compute. reflexivity. Qed.\n'%(kind,nm,kind,nm.replace('-','_'),fn,q(a),q(b))
open(os.path.join(os.path.dirname(os.path.abspath(__file__)),'../rocq/theories/ModelTests.v'),'w',newline='').write(res)
print(len(T),'unit tests')
