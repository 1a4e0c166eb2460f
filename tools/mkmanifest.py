#!/usr/bin/env python3
"""Writes MANIFEST.json from the table below."""
import json, os
T = {}
def c(p, status, theorems, note=""):
    T[p] = dict(property=p, status=status, theorems=theorems.split(), note=note)
exec(open(os.path.join(os.path.dirname(__file__), "claims.py")).read())
json.dump({"claims": [T[k] for k in sorted(T)]}, open("/verif/MANIFEST.json", "w"), indent=1)
