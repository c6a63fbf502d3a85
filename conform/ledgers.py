import re,glob,subprocess,json,os,sys
from decimal import Decimal
def tokenize(s):
    out=[]
    i=0
    while i<len(s):
        c=s[i]
        if c.isspace() or c in ',;': i+=1;continue
        if c=='#':
            while i<len(s) and s[i]!='\n': i+=1
            continue
        if c in '{}:': out.append(c);i+=1;continue
        if c in '"\'':
            q=c;i+=1;b=bytearray()
            while s[i]!=q:
                if s[i]=='\\':
                    i+=1
                    m=re.match(r'[0-7]{1,3}',s[i:])
                    if m: b.append(int(m.group(0),8));i+=len(m.group(0));continue
                    e={'n':10,'t':9,'r':13,'"':34,"'":39,'\\':92,'a':7,'b':8,'f':12,'v':11}
                    if s[i]=='x':
                        m=re.match(r'x([0-9a-fA-F]{1,2})',s[i:]); b.append(int(m.group(1),16)); i+=len(m.group(0));continue
                    b.append(e[s[i]]);i+=1
                else: b+=s[i].encode();i+=1
            i+=1
            v=('s',bytes(b).decode())
            if out and isinstance(out[-1],tuple) and out[-1][0]=='s': out[-1]=('s',out[-1][1]+v[1])
            else: out.append(v)
            continue
        m=re.match(r'[\w.+-]+',s[i:]); out.append(('w',m.group(0)));i+=len(m.group(0))
    return out
def parse(t,i):
    d={}
    while i<len(t) and t[i]!='}':
        k=t[i][1];i+=1
        if t[i]==':': i+=1
        if t[i]=='{':
            v,i=parse(t,i+1); assert t[i]=='}'; i+=1
        else: v=t[i][1] if t[i][0]=='s' else ('raw',t[i][1]); i+=1
        d.setdefault(k,[]).append(v)
    return d,i
def one(d,k,default=None): 
    if d is None: return default
    v=d.get(k); 
    if v is None: return default
    assert len(v)==1,(k,v)
    return v[0]
def num(x):
    if x is None: return None
    return Decimal(one(x,'exact'))
def dt(x):
    return None if x is None else [int(one(x,k)[1]) for k in ('year','month','day')]
def b(x): return None if x is None else x[1]=='true'
def e_meta_value(v):
    if not v: return {}
    (k,[x]),=v.items()
    if k=='number': return {'number':num(x)}
    if k=='amount': return {'amount':e_amount(x)}
    if k=='date': return {'date':dt(x)}
    if k=='boolean': return {'boolean':b(x)}
    return {k:x}
def e_amount(a): return {'number':num(one(a,'number')),'currency':one(a,'currency')}
def e_meta(m,tags,links):
    kv={};tags=set(tags);links=set(links)
    for x in (m or {}).get('kv',[]):
        k=one(x,'key');v=one(x,'value',{})
        if k is None:
            if 'tag' in v: tags.add(one(v,'tag'))
            if 'link' in v: links.add(one(v,'link'))
        else:
            assert k not in kv; kv[k]=e_meta_value(v)
    return {'kv':kv,'tags':tags,'links':links}
def e_posting(p):
    spec=one(p,'spec',{});units=one(spec,'units',{});cost=one(spec,'cost');price=one(spec,'price')
    def n(c,k):
        x=one(c,k); return None if x is None else num(one(x,'number'))
    return {'flag':one(p,'flag'),'account':one(p,'account'),'amount':num(one(units,'number')),'currency':one(units,'currency'),
     'cost':None if cost is None else {'per_unit':n(cost,'per_unit'),'total':n(cost,'total'),'currency':one(cost,'currency'),'date':dt(one(cost,'date')),'label':one(cost,'label'),'merge':b(one(cost,'merge_cost')) or False},
     'price':None if price is None else {'currency':one(price,'currency'),'number':num(one(price,'number')),'is_total':b(one(price,'is_total')) or False},
     'meta':e_meta(one(p,'meta'),[],[])}
KINDS=['transaction','price','balance','open','close','commodity','pad','document','note','event','query','custom']
def e_dir(d):
    ks=[k for k in KINDS if k in d]; assert len(ks)==1,d
    k=ks[0];v=one(d,k)
    if k=='transaction': w={'flag':one(v,'flag'),'payee':one(v,'payee'),'narration':one(v,'narration'),'postings':[e_posting(p) for p in v.get('postings',[])]}
    elif k=='price': w={'currency':one(v,'currency'),'amount':e_amount(one(v,'amount'))}
    elif k=='balance': w={'account':one(v,'account'),'amount':e_amount(one(v,'amount')),'tolerance':num(one(v,'tolerance'))}
    elif k=='open': bk=one(v,'booking'); w={'account':one(v,'account'),'currencies':set(v.get('currencies',[])),'booking':bk and bk[1]}
    elif k=='custom': w={'type':one(v,'type'),'values':[e_meta_value(x) for x in v.get('values',[])]}
    else: w={x:y[0] for x,y in v.items()}
    return {'date':dt(one(d,'date')),'meta':e_meta(one(d,'meta'),d.get('tags',[]),d.get('links',[])),'v':{k:w}}
def D(x):
    if x is None: return None
    neg,m,s=x
    return Decimal(-m if neg else m).scaleb(-s) if m else Decimal(0)
def a_amount(a): return {'number':D(a['number']),'currency':a['currency']}
def a_mv(v):
    if not v: return {}
    (k,x),=v.items()
    if k=='number': return {k:D(x)}
    if k=='amount': return {k:a_amount(x)}
    if k=='account': return {k:x[1]}
    return {k:x}
def a_meta(m): return {'kv':{k:a_mv(v) for k,v in m['kv']},'tags':set(m['tags']),'links':set(m['links'])}
def a_posting(p):
    c=p['cost'];pr=p['price']
    return {'flag':p['flag'],'account':p['account'][1],'amount':D(p['amount']),'currency':p['currency'],
     'cost':c and {**c,'per_unit':D(c['per_unit']),'total':D(c['total'])},'price':pr and {**pr,'number':D(pr['number'])},'meta':a_meta(p['meta'])}
def a_dir(d):
    (k,v),=d['v'].items()
    if k=='transaction': v={**v,'postings':[a_posting(p) for p in v['postings']]}
    elif k=='price': v={**v,'amount':a_amount(v['amount'])}
    elif k=='balance': v={'account':v['account'][1],'amount':a_amount(v['amount']),'tolerance':D(v['tolerance'])}
    elif k=='open': v={'account':v['account'][1],'currencies':set(v['currencies']),'booking':v['booking']}
    elif k=='custom': v={'type':v['type'],'values':[a_mv(x) for x in v['values']]}
    else: v={x:(y[1] if isinstance(y,list) else y) for x,y in v.items()}
    return {'date':d['date'],'meta':a_meta(d['meta']),'v':{k:v}}
bad=0;n=0
for f in sorted(glob.glob((sys.argv[1] if len(sys.argv)>1 else '/repo/test-cases')+'/*.beancount')):
    n+=1
    name=os.path.basename(f)[:-10]
    e,_=parse(tokenize(open(f[:-10]+'.txtpb',encoding='utf8',newline='').read()),0)
    r=subprocess.run(['./drv',f],capture_output=True,text=True)
    try: a=json.loads(r.stdout)
    except Exception: print(name,'FAILED',r.stdout[:200],r.stderr[:200]);bad+=1;continue
    ee=e.get('errors',[])
    if 'panic' in a or 'loop' in a: print(name,'PANIC',a, 'expected errors' ,len(ee));bad+=1;continue
    if 'errors' in a:
        if len(a['errors'])!=len(ee): print(name,'ERRORS',a['errors'],'expected',[one(x,'message') for x in ee]);bad+=1
        elif '-v' in sys.argv: print(name,a['errors'],[one(x,'message') for x in ee])
        continue
    if ee: print(name,'no errors, expected',[one(x,'message') for x in ee]);bad+=1;continue
    x=[e_dir(d) for d in e.get('directives',[])];y=[a_dir(d) for d in a['directives']]
    if x!=y:
        bad+=1;print(name,'DIRECTIVES differ',len(x),len(y))
        for p,q in zip(x,y):
            if p!=q: print('  expected',p);print('  model   ',q);break
    eo=one(e,'options',{});ao=a['options']
    o={}
    for k in ao:
        if k in('names','documents','operating_currency'):continue
        v=eo.get(k)
        if k=='inferred_tolerance_default':
            v={one(z,'key'):Decimal(one(z,'value')) for z in (v or [])}; w={k2:D(v2) for k2,v2 in ao[k]}
        else:
            v=v and v[0]
            w=ao[k]
            if isinstance(v,tuple): v={'true':True,'false':False}.get(v[1],v[1])
            if k=='inferred_tolerance_multiplier': v=v and Decimal(v); w=D(w)
        if v!=w: bad+=1;print(name,'option',k,v,w)
    at=one(eo,'account_types',{})
    nm=[one(at,k,k.capitalize()) for k in('assets','liabilities','equity','income','expenses')]
    if nm!=ao['names']: bad+=1;print(name,'names',nm,ao['names'])
    pl=[[one(p,'name'),one(p,'config')] for p in (one(e,'info',{}).get('plugin',[]))]
    if pl!=a['plugins']: bad+=1;print(name,'plugins',pl,a['plugins'])
    for k in eo:
        if k not in ao and k!='account_types': print(name,'unknown expected option',k)
print(n,'cases',bad,'bad')
