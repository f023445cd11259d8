#!/bin/bash
set -e
python3 /tmp/work/assum.py
cd /verif/rocq && (echo "-Q theories Verif"; ls theories/*.v) > _CoqProject
python3 /tmp/work/man.py
coq_makefile -f _CoqProject -o Makefile
make -j4 2>&1 | grep -v "^COQC\|^COQDEP" | tail -15
mkdir -p /verif/tools; cp /tmp/work/*.py /tmp/work/*.sh /verif/tools/ 2>/dev/null || true
cd /verif && git add -A && git commit -qm "$1" && vcheck
