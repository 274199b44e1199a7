#!/usr/bin/env python3
"""Write MANIFEST.json from the table below."""
import json
C=[]
def c(p,status,thms,note): C.append(dict(property=p,status=status,theorems=thms,note=note))
exec(open('/verif/manifest_table.py').read())
json.dump({"claims":C},open('/verif/MANIFEST.json','w'),indent=1)
