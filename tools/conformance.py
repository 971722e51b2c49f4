#!/usr/bin/env python3
"""Generates rocq/theories/Conf*.v: the unit tests of /repo replayed on the model.
usage: conformance.py [repo]"""
import re,sys,os
REPO=sys.argv[1] if len(sys.argv)>1 else '/repo'
OUT=os.path.join(os.path.dirname(os.path.abspath(__file__)),'../rocq/theories')
def unescape(s):
    out=[];i=0
    while i<len(s):
        c=s[i]
        if c!='\\': out.append(c);i+=1;continue
        n=s[i+1]
        if n in 'nrt0': out.append({'n':'\n','r':'\r','t':'\t','0':'\0'}[n]);i+=2
        elif n=='u':
            j=s.index('}',i);out.append(chr(int(s[i+3:j],16)));i=j+1
        elif n=='x': out.append(chr(int(s[i+2:i+4],16)));i+=4
        elif n=='\n':
            i+=2
            while i<len(s) and s[i] in ' \t\n': i+=1
        else: out.append(n);i+=2
    return ''.join(out)
# a Rust string literal, plain or raw
LIT=r'(?:r(?P<h{0}>#*)"(?P<raw{0}>.*?)"(?P=h{0})|"(?P<str{0}>(?:[^"\\]|\\.)*)")'
def lit(n=''): return LIT.replace('{0}',str(n))
def val(m,n=''):
    r=m.group(f'raw{n}')
    return r if r is not None else unescape(m.group(f'str{n}'))
def coq(s):
    if s=='': return '[]'
    return '['+'; '.join(str(ord(c)) for c in s)+']%N'
def show(s): return s.replace('(*','( *').replace('*)','* )').replace('"',"''")
def tests(path):
    """name -> body of the #[test] functions, without comments"""
    src=open(os.path.join(REPO,path),encoding='utf-8').read()
    src=src[src.index('mod tests'):]
    res=[]
    for m in re.finditer(r'#\[test\]\s*(?:#\[[^\]]*\]\s*)*fn (\w+)\(\) \{\n(.*?)\n    \}\n',src,re.S):
        body='\n'.join(l for l in m.group(2).split('\n') if not l.strip().startswith('//'))
        res.append((m.group(1),body))
    assert len(res)==src.count('#[test]'),path
    return src,res
def header(f,mods):
    return f"(** Generated by tools/conformance.py from the unit tests of {f}: do not edit. *)\nFrom Verif Require Import Base {mods}.\n\n"
def write(name,text):
    open(os.path.join(OUT,name+'.v'),'w',encoding='utf-8').write(text)
def pairs(io): return '['+';\n     '.join(f'({coq(a)}, {coq(b)})' for a,b in io)+']'
def lines(ls): return '['+';\n     '.join(coq(l) for l in ls)+']'
def files():
    d=os.path.join(REPO,'dictionaries')
    return [('dictionaries/'+f,open(os.path.join(d,f),encoding='utf-8').read()) for f in sorted(os.listdir(d)) if f.endswith('.dic')]
def example(name,stmt,note=''):
    return f'{note}Example {name} : {stmt} = true.\nProof. vm_compute. reflexivity. Qed.\n'
count=0
def translate_tests(path,prefix,kind):
    global count
    out=''
    _,ts=tests(path)
    for name,body in ts:
        rules=[val(m) for m in re.finditer(r'parse_rule\(\s*'+lit()+r'\s*,?\)',body,re.S)]
        io=[(val(m,1),val(m,2)) for m in re.finditer(r'assert_eq!\(\s*(?:table|transform|pipeline)\.translate\(\s*'+lit(1)+r'\s*\)\s*,\s*'+lit(2)+r'\s*,?\s*\)',body,re.S)]
        if len(io)!=body.count('assert'): print('skipped',path,name); continue
        d='Backward' if 'Direction::Backward' in body else 'Forward'
        assert not('Direction::Backward' in body and 'Direction::Forward' in body)
        if kind=='multipass':
            st=re.search(r'TranslationStage::(\w+)',body).group(1)
            call=f'cf_multipass {d} {st}'
        elif kind=='pipeline': call=f'cf_pipeline {d}'
        else: call=f'cf_main cf_files {d}'
        note=f'(** {path}: {name}\n'+''.join('    '+show(r)+'\n' for r in rules)+''.join(f'    {show(a)} => {show(b)}\n' for a,b in io)+' *)\n'
        out+=example(f'{prefix}_{name}',f'{call}\n    {lines(rules)}\n    {pairs(io)}',note)
        count+=len(io)
    return out
t=header('src/translator/table/primary.rs','RuleModel TranslationModel ConfBase')
t+='Definition cf_files : list (str * str) :=\n  ['+';\n   '.join(f'({coq(a)}, {coq(b)})' for a,b in files())+'].\n'
t+=translate_tests('src/translator/table/primary.rs','primary','main')
write('ConfPrimary',t)
t=header('src/translator/pipeline.rs and src/translator/table/multipass.rs','RuleModel TranslationModel ConfBase')
t+=translate_tests('src/translator/table/multipass.rs','multipass','multipass')
t+=translate_tests('src/translator/pipeline.rs','pipeline','pipeline')
write('ConfPasses',t)
# regular expressions of regexp.rs written as Rust expressions
RE={'Literal':'RLiteral','Concat':'RConcat','Either':'REither','Optional':'ROptional','ZeroOrMore':'RZeroOrMore','OneOrMore':'ROneOrMore',
    'Any':'RAny','CharacterClass':'RClass','RepeatExactly':'RRepeatExactly','RepeatAtLeast':'RRepeatAtLeast',
    'RepeatAtLeastAtMost':'RRepeatAtLeastAtMost','Capture':'RCapture','String':'RString','VariableEqual':'RVarEq','Empty':'REmpty'}
def re_expr(s,i):
    """a Regexp expression at s[i:] -> Coq term, end"""
    def ws(i):
        while s[i] in ' \n,': i+=1
        return i
    i=ws(i)
    if s.startswith('Box::new(',i):
        t,i=re_expr(s,i+9); i=ws(i); assert s[i]==')'; return t,i+1
    m=re.compile(r'Regexp::(\w+)').match(s,i)
    if m:
        i=m.end(); args=[]
        if s[i]=='(':
            i+=1
            while True:
                i=ws(i)
                if s[i]==')': i+=1; break
                a,i=re_expr(s,i); args.append(a)
        c=RE[m.group(1)]
        if c=='RVarEq': args=[a+'%N' for a in args]
        return ('('+' '.join([c]+args)+')' if args else c),i
    m=re.compile(r'HashSet::from\(\[([^\]]*)\]\)').match(s,i)
    if m: return coq(''.join(re.findall(r"'(.)'",m.group(1)))),m.end()
    m=re.compile(r"'(.)'").match(s,i)
    if m: return str(ord(m.group(1)))+'%N',m.end()
    m=re.compile(r'"([^"]*)"\.to_string\(\)').match(s,i)
    if m: return coq(m.group(1)),m.end()
    m=re.compile(r'\d+').match(s,i)
    return m.group(0),m.end()
def regexp_tests():
    global count
    path='src/translator/regexp.rs'
    out=''
    for name,body in tests(path)[1]:
        if 'find(' in body or 'Instant' in body: continue
        term=None;env='[]';n=0;cs=[]
        for m in re.finditer(r'let re = |assert!\(\s*(!?)(?=(re|Regexp))|Effect::new\((\d+), (\d+)\)',body):
            if m.group(0).startswith('let re'):
                term,i=re_expr(body,m.end())
                if body.startswith('.negate()',i): term=f'(NEGATE {term})'
            elif m.group(3): env=f'[({m.group(3)}, {m.group(4)})]%N'
            else:
                i=m.end()
                t=term
                if m.group(2)=='Regexp': t,i=re_expr(body,i)
                q=re.compile(r'[^"]*"([^"]*)"').match(body,i)
                cs.append((t,env,q.group(1),'false' if m.group(1) else 'true')); n+=1
        assert n==body.count('assert!'),(name,n)
        count+=n
        out+=f'(** {path}: {name} *)\nExample regexp_{name} :\n  forallb (fun t => cf_is_match t)\n    ['+';\n     '.join(f'({"negate "+t[8:-1] if t.startswith("(NEGATE") else "Some "+t}, {e}, {coq(x)}, {v})' for t,e,x,v in cs)+'] = true.\nProof. vm_compute. reflexivity. Qed.\n'
    return out
t=header('src/translator/regexp.rs','RuleModel TranslationModel ConfBase RegexpModel')
t+="""Definition cf_is_match (t : option regexp * list (N * N) * str * bool) : bool :=
  match t with
  | (Some r, e, input, b) =>
      match regexp_find cf_lower r (fun v => option_map snd (find (fun p => N.eqb v (fst p)) e)) true input with
      | Ok (Some _) => b
      | Ok None => negb b
      | _ => false
      end
  | _ => false
  end.
"""
t+=regexp_tests()
write('ConfRegexp',t)
print(count,'assertions')
