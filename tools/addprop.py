#!/usr/bin/env python3
"""Append a property: addprop.py ID TITLE STATEMENT QUANTIFIER WHY ANCHOR..."""
import json, sys
i, t, s, q, w, *a = sys.argv[1:]
ids = [json.loads(l)["id"] for l in open("/verif/properties.jsonl")]
assert i not in ids, i
open("/verif/properties.jsonl", "a").write(json.dumps(dict(id=i, title=t, statement=s, quantifier=q, why_tests_cant=w, anchors=a)) + "\n")
