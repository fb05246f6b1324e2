#!/bin/sh
# regenerate _CoqProject from the files present, then build
cd "$(dirname "$0")"
( echo "-Q theories Verif"; ls theories/*.v ) > _CoqProject
coq_makefile -f _CoqProject -o Makefile && make -j4 "$@"
