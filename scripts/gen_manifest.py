#!/usr/bin/env python3
import json, os
C = []
def c(p, status, theorems, note=""):
    C.append(dict(property=p, status=status, theorems=theorems.split(), note=note))
exec(open(os.path.join(os.path.dirname(os.path.abspath(__file__)), "claims.py")).read())
json.dump({"claims": C}, open(os.path.join(os.path.dirname(os.path.abspath(__file__)), "..", "MANIFEST.json"), "w"), indent=1)
print(len(C))
