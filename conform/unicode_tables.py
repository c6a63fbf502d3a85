import unicodedata,sys
# ranges for non-ascii
def ranges(f):
    out=[];a=None
    for c in range(0x110000):
        v=f(c)
        if v and a is None:a=c
        if not v and a is not None: out.append((a,c-1));a=None
    if a is not None: out.append((a,0x10ffff))
    return out
cat=[unicodedata.category(chr(c)) for c in range(0x110000)]
preds={'alphabetic':lambda c: chr(c).isalpha(),'numeric':lambda c:cat[c][0]=='N','l':lambda c:cat[c][0]=='L','lu':lambda c:cat[c]=='Lu','lo':lambda c:cat[c]=='Lo','n_':lambda c:cat[c][0]=='N','nd':lambda c:cat[c]=='Nd'}
for k,f in preds.items():
    print("let t_%s=[|%s|]"%(k,';'.join('(%d,%d)'%r for r in ranges(f))))
