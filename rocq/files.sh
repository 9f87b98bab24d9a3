#!/bin/sh
# list all theory files in _CoqProject
cd "$(dirname "$0")"
{ echo '-Q theories Verif'; find theories -name '*.v' | LC_ALL=C sort; } > _CoqProject
