Helper scripts: `mkprops.py` regenerates properties.jsonl, `mkmanifest.py` regenerates MANIFEST.json, `assumptions.py` rewrites the assumptions table of DESIGN.md.
