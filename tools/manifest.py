# usage: python3 tools/manifest.py  -- regenerates MANIFEST.json from tools/claims.py
import json, os, sys
sys.path.insert(0, os.path.dirname(__file__))
from claims import CLAIMS
json.dump({"claims": [dict(property=p, status=s, theorems=t, note=n) for (p, s, t, n) in CLAIMS]},
          open(os.path.join(os.path.dirname(__file__), "..", "MANIFEST.json"), "w"), indent=1)
