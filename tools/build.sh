#!/bin/sh
# full build of /verif/rocq
cd "$(dirname "$0")/../rocq" && coq_makefile -f _CoqProject -o Makefile && timeout 2400 make -j4 2>&1 | grep -v "^COQC\|^COQDEP\|^Closed under"
