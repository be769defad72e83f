#!/bin/sh
# Regenerates lists, builds, commits (message in $1) and runs the gate.
cd /verif || exit 1
python3 tools/props.py && sh tools/coqproject.sh && python3 tools/manifest.py || exit 1
cd rocq && coq_makefile -f _CoqProject -o Makefile && timeout 2400 make -j4 2>&1 | grep -v "^Closed\|^COQC\|^COQDEP" | tail -20
cd .. && git add -A && git commit -qm "$1"
timeout 3900 vcheck | tail -2
