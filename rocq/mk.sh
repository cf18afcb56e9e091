#!/bin/bash
# regenerate _CoqProject and build, printing only errors
cd "$(dirname "$0")"
{ echo "-Q theories Verif"; ls theories/*.v; } > _CoqProject
coq_makefile -f _CoqProject -o Makefile >/dev/null 2>&1
make -j4 >/tmp/mk.log 2>&1; rc=$?
grep -A30 -E "^File|Error" /tmp/mk.log | grep -v "^make" | head -60
exit $rc
