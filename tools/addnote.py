#!/usr/bin/env python3
"""addnote.py ID STATUS NOTE: set one entry of tools/notes.json."""
import json, os, sys
p = os.path.join(os.path.dirname(os.path.abspath(__file__)), 'notes.json')
d = json.load(open(p))
d[sys.argv[1]] = {"status": sys.argv[2], "note": sys.argv[3] if len(sys.argv) > 3 else ""}
open(p, 'w').write("{\n" + ",\n".join(f'"{k}": {json.dumps(v)}' for k, v in sorted(d.items())) + "\n}\n")
