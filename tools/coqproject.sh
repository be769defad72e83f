#!/bin/sh
# Regenerates the file list of rocq/_CoqProject.
cd "$(dirname "$0")/../rocq" || exit 1
{ echo "-Q theories Verif"; find theories -name '*.v' | sort; } > _CoqProject
