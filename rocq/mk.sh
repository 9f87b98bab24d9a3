#!/bin/sh
sh "$(dirname "$0")"/files.sh
# regenerate the makefile and build; show errors and the set of axioms printed
cd "$(dirname "$0")" && coq_makefile -f _CoqProject -o Makefile >/dev/null || exit 1
timeout ${1:-2400} make -j4 > build.log 2>&1; rc=$?
grep -A25 '^File' build.log | grep -v '^COQ\|^make' | head -60
echo "rc=$rc axioms: $(grep -o '^[A-Za-z_]*\.[A-Za-z_.]*' build.log | sort -u | tr '\n' ' ')"
