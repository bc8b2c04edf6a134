#!/bin/bash
# ship.sh "commit message": regenerate, build, commit, vcheck
set -e
cd /verif/tools && python3 props1.py && python3 manifest.py
cd /verif/rocq && coq_makefile -f _CoqProject -o Makefile >/dev/null && make -j3 2>&1 | grep -v "^COQC\|^COQDEP\|make\[" | tail -5
cd /verif/tools && python3 design.py | head -c 200
cd /verif && git add -A && git commit -qm "$1" && vcheck | tail -1 | sed 's/"library_axioms": \[[^]]*\], //'
