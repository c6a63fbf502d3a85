import re,json,subprocess,sys,unicodedata
src=open('/repo/src/lexer/tests.rs').read()
# split into test functions
tok=re.compile(r'''//[^\n]*|r\#"(?P<raw>.*?)"\#|"(?P<str>(?:\\.|[^"\\])*)"|(?P<num>\d+(?:\.\d+)?)|(?P<id>[A-Za-z_]\w*!?)|(?P<p>[(),\[\]:&;.'{}=|\#-])|\s+|(?P<o>.)''',re.S)
def toks(s):
    for m in tok.finditer(s):
        if m.group('raw') is not None: yield ('s',m.group('raw'))
        elif m.group('str') is not None:
            t=m.group('str')
            t=re.sub(r'\\\n\s*','',t)
            t=re.sub(r'\\(x..|.)',lambda k:{'n':'\n','t':'\t','r':'\r','0':'\0','\\':'\\','"':'"',"'":"'"}.get(k.group(1)) or chr(int(k.group(1)[1:],16)),t)
            yield ('s',t)
        elif m.group('num'): yield ('n',m.group('num'))
        elif m.group('id'): yield ('i',m.group('id'))
        elif m.group('p') : yield ('p',m.group('p'))
def dec(s):
    a,_,b=s.partition('.')
    return (int(a+b),len(b))
def same(a,b): # numbers by value
    if isinstance(a,list) and isinstance(b,list) and a and b and a[0]==b[0]=='Number':
        (n1,m1,s1),(n2,m2,s2)=a[1],b[1]
        return n1==n2 and m1*10**s2==m2*10**s1
    return a==b
names=['Currency','Account','Tag','Link','Key']
ok=bad=skip=0
for fn in re.finditer(r'#\[test\]\nfn (\w+)\(\) \{(.*?)\n\}\n',src,re.S):
    body=fn.group(2); ts=list(toks(body)); i=0
    while i<len(ts):
        if ts[i][0]=='i' and ts[i][1] in('lex_and_check','bare_lex_and_check'):
            bare=ts[i][1]=='bare_lex_and_check'; i+=2
            if ts[i][0]!='s':
                print('skip',fn.group(1)); skip+=1; i+=1; continue
            text=ts[i][1]; i+=2
            exp=[]; depth=1
            while depth>0:
                k,v=ts[i]
                if (k,v) in(('p','('),('p','[')): depth+=1
                elif (k,v) in(('p',')'),('p',']')): depth-=1
                elif k=='i':
                    if v in('vec!','Vec','default','dec!'): pass
                    elif v=='date': y,m,d=ts[i+2][1].split('-'); exp.append(['Date',[int(y),int(m),int(d)]])
                    elif v=='time':
                        p=ts[i+2][1].split(':'); exp.append(['Time',int(p[0]),int(p[1]),int(float(p[2])) if len(p)>2 else 0])
                    elif v=='number!': m,s=dec(ts[i+2][1]); exp.append(['Number',[False,m,s]])
                    elif v=='string_literal': exp.append(['String',ts[i+2][1]])
                    elif v=='unrecognized': exp.append(['Error','unrecognized token'])
                    elif v=='error': exp.append(['Error',ts[i+2][1]])
                    elif v in names: exp.append([v,ts[i+2][1]])
                    elif v=='Flag': exp.append(['FlagX'])
                    else: exp.append(v)
                i+=1
            open('/tmp/lx','w').write(text)
            got=json.loads(subprocess.run(['./lexdrv','/tmp/lx'],capture_output=True,text=True).stdout)
            if bare: exp.append('Eol')
            if len(got)==len(exp) and all(same(a,b) for a,b in zip(got,exp)): ok+=1
            else: bad+=1; print('DIFF',fn.group(1),'\n got',got,'\n exp',exp)
        i+=1
print(ok,bad,skip)
