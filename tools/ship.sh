#!/bin/bash
# regenerate, commit, check
cd /verif && python3 tools/manifest.py && python3 tools/design.py && git add -A && git commit -qm "$1" && vcheck 2>&1 | tail -${2:-15}
