#!/usr/bin/env python3
"""Generates MANIFEST.json.  m(property, status, theorems, note)."""
import json, os
C = []
def m(p, st, th, note): C.append(dict(property=p, status=st, theorems=th.split(), note=note))
exec(open(os.path.join(os.path.dirname(__file__), 'claims.txt')).read())
root = os.path.dirname(os.path.dirname(os.path.abspath(__file__)))
json.dump({"claims": sorted(C, key=lambda c: c["property"])}, open(os.path.join(root, 'MANIFEST.json'), 'w'), indent=1)
