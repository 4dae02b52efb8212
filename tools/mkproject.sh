#!/bin/sh
# regenerates rocq/_CoqProject from the files in rocq/theories
cd "$(dirname "$0")/../rocq" || exit 1
{ echo "-Q theories Verif"; ls theories/*.v | LC_ALL=C sort; } > _CoqProject
