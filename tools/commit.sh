#!/bin/sh
# regenerate the meta files and commit
cd /verif && python3 tools/props.py > properties.jsonl && python3 tools/manifest.py > MANIFEST.json && git add -A && git commit -qm "$1" && vcheck 2>&1 | tail -c 1500
