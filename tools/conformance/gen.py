import json,os,re,glob
import xml.etree.ElementTree as ET
R='/repo/'
def q(s):
    o='"'
    for ch in s:
        c=ord(ch)
        if ch in '"\\': o+='\\'+ch
        elif c==10: o+='\\n'
        elif c==13: o+='\\r'
        elif c==9: o+='\\t'
        elif c<128: o+=ch
        else: o+='?'
    return 't '+o+'"'
def qs(s): return '('+q(s)+')'
out=['open Model','let t s = List.init (String.length s) (String.get s)']
projs={}
def comp(j):
    ls='; '.join('{fl_id=%s; fl_inv=%s; fl_type=%s; fl_urgency=%s}'%(q(l['id']),q(l['invariant']),q(l['type']),q(l['urgency'])) for l in j['locations'])
    es='; '.join('{fe_id=%s; fe_src=%s; fe_tgt=%s; fe_status=%s; fe_guard=%s; fe_update=%s; fe_sync=%s}'%(q(e.get('id','')),q(e['sourceLocation']),q(e['targetLocation']),q(e['status']),q(e['guard']),q(e['update']),q(e['sync'])) for e in j['edges'])
    return '{fc_name=%s; fc_decls=%s; fc_locs=[%s]; fc_edges=[%s]}'%(q(j['name']),q(j['declarations']),ls,es)
def proj(path):
    if path in projs: return projs[path]
    n='p%d'%len(projs); projs[path]=n
    if path.endswith('.xml'):
        root=ET.parse(R+path).getroot()
        def el(e):
            return 'Elem (%s, [%s], %s, [%s])'%(qs(e.tag),'; '.join('(%s, %s)'%(qs(k),qs(v)) for k,v in e.attrib.items()),qs(e.text or ''),'; '.join(el(k) for k in e))
        out.append('let %s = loadx (%s)'%(n,el(root)))
        return n
    sd=json.load(open(R+path+'/SystemDeclarations.json'))['declarations'] if os.path.exists(R+path+'/SystemDeclarations.json') else 'system X;'
    cs=[]
    for f in sorted(glob.glob(R+path+'/Components/*.json')):
        try: j=json.load(open(f))
        except Exception as e: print('BAD',f,e); continue
        nm=os.path.basename(f)[:-5]
        cs.append('(%s, %s)'%(q(nm),comp(j)))
    out.append('let %s_files n = List.assoc_opt n [%s]'%(n,';\n '.join(cs)))
    out.append('let %s = loadj %s_files (%s)'%(n,n,q(sd)))
    return n
tests=[];saves=[];paths=[]
for f in sorted(glob.glob(R+'src/tests/**/*.rs',recursive=True)):
    s=open(f).read()
    consts=dict(re.findall(r'const (\w+): &str =\s*"([^"]*)"',s))
    for m in re.finditer(r'assert!\(\s*(!?)\s*(json|xml)_refinement_check\(\s*(\w+|"[^"]*"),\s*"([^"]*)"',s):
        path=consts.get(m.group(3),m.group(3).strip('"'))
        tests.append((os.path.basename(f),path,m.group(4),'false' if m.group(1) else 'true'))
    for m in re.finditer(r'(json|xml)_run_query\(\s*(\w+),\s*"([^"]*)"\)\s*;\s*(if let QueryResult::\w+\(_\) = &result \{\s*assert!\(\s*(!?)convert_to_bool)',s):
        tests.append((os.path.basename(f),consts[m.group(2)],m.group(3),'false' if m.group(5) else 'true'))
    for m in re.finditer(r'#\[test_case\((\w+),\s*"([^"]*)",\s*(true|false)\s*;',s):
        if m.group(1) in consts: tests.append((os.path.basename(f),consts[m.group(1)],m.group(2),m.group(3)))
    for m in re.finditer(r'json_run_query\(\s*(\w+),\s*"([^"]*)",?\s*\)',s):
        if m.group(1) in consts and not any(x[1]==consts[m.group(1)] and x[2]==m.group(2) for x in tests): tests.append((os.path.basename(f),consts[m.group(1)],m.group(2),'other'))
    for m in re.finditer(r'json_reconstructed_component_refines_base_self\(\s*(\w+),\s*"([^"]*)"',s):
        saves.append((consts[m.group(1)],m.group(2)))
    for m in re.finditer(r'#\[test_case\((\w+),\s*"([^"]*)",\s*(vec!\[.*?\]);',s):
        if m.group(1) in consts: paths.append((consts[m.group(1)],m.group(2),m.group(3).replace('vec!','')))
def L(xs): return '[%s]'%';\n'.join(xs)
qt=lambda s:json.dumps(s)
a=L('(%s, %s, %s, %s)'%(qt(f+' '+p),qt(x),qt(e),proj(p)) for f,p,x,e in tests)
b=L('(%s, %s, %s)'%(qt(p),qt(x),proj(p)) for p,x in saves)
c=L('(%s, %s, %s)'%(qt(x),qt(e),proj(p)) for p,x,e in paths)
D='samples/json/ClockReductionTest/'
red=[(D+'AdvancedClockReduction/Conjunction/Example1','Component1 && Component2','x <- y'),(D+'AdvancedClockReduction/Conjunction/SameComponent','Component1 && Component1','x0 <- x1'),
 (D+'AdvancedClockReduction/Conjunction/ConjunctionCyclic','Component1 && Component2','x <- y'),(D+'AdvancedClockReduction/Composition/CyclicOnlyOutput','Component1 || Component2','none'),
 (D+'RedundantClocks','Component1','x <- y,z')]+[(D+'UnusedClockWithCycle',x,y) for x,y in [('Component1','remove x'),('Component2','remove z'),('Component3','remove j')]]+[(D+'UnusedClock',x,y) for x,y in [('Component1','remove x'),('Component2','remove i'),('Component3','remove c')]]+[('samples/json/AG','A','all')]
r=L('(%s, %s, %s, %s)'%(qt(p),qt(x),qt(y),proj(p)) for p,x,y in red)
U='samples/json/EcdarUniversity'
sims=[]
for ns,c2 in [(["Machine"],"(Machine)"),(["HalfAdm1","HalfAdm2"],"(HalfAdm1 && HalfAdm2)"),(["Administration","Machine","Researcher"],"(Administration || Machine || Researcher)"),(["Spec","Machine"],"(Spec // Machine)"),(["Machine","Spec","Researcher"],"(Spec // Machine // Researcher)"),(["HalfAdm1","HalfAdm2","Machine","Researcher"],"((HalfAdm1 && HalfAdm2) || Machine || Researcher)")]:
    sims.append('(%s, [%s])'%(qt(c2),'; '.join('RepJson (Some %s)'%comp(json.load(open(R+U+'/Components/%s.json'%n))) for n in ns)))
u=proj(U)
out+=['let tests = '+a,'let saves = '+b,'let paths = '+c,'let reds = '+r,'let sims = '+L(sims),'let uni = '+u]
open('data.ml','w').write('\n'.join(out)+'\n')
print(len(tests),len(saves),len(paths),len(red))
