#!/bin/bash
# usage: ms.sh "commit message"
cd /verif || exit 1
( echo "-Q theories Verif"; cd rocq; ls theories/*.v | grep -v Prop_; ls theories/Prop_*.v ) > /tmp/cp && cp /tmp/cp rocq/_CoqProject
python3 tools/mkmanifest.py
cd rocq && coq_makefile -f _CoqProject -o Makefile >/dev/null && make -j4 2>&1 | grep -E "Error|rror:|\*\*\*" 
cd /verif && python3 tools/axioms.py; git add -A && git commit -qm "$1"
vcheck 2>&1 | tail -40
