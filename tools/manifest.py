import json
C=[]
def c(p,st,th,note=""): C.append({"property":p,"status":st,"theorems":th,"note":note})
exec(open('/tmp/gen/claims.py').read())
json.dump({"claims":C},open('/verif/MANIFEST.json','w'),indent=1)
