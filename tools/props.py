#!/usr/bin/env python3
"""Append properties to properties.jsonl (kept as the single source: the jsonl file)."""
import json, sys, os
PATH = os.path.join(os.path.dirname(os.path.dirname(os.path.abspath(__file__))), "properties.jsonl")
def append(props):
    have = {}
    if os.path.exists(PATH):
        for l in open(PATH):
            if l.strip():
                o = json.loads(l); have[o["id"]] = o
    for p in props:
        for k in ("id","title","statement","quantifier","why_tests_cant","anchors"):
            assert k in p, (p.get("id"), k)
        have[p["id"]] = p
    with open(PATH, "w") as f:
        for k in sorted(have):
            f.write(json.dumps(have[k]) + "\n")
