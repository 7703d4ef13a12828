#!/bin/bash
# regenerate the file list of rocq/_CoqProject
cd "$(dirname "$0")/../rocq" || exit 1
{ echo "-Q theories Verif"; ls theories/*.v | LC_ALL=C sort; } > _CoqProject
