#!/bin/sh
# regenerate rocq/_CoqProject from the files in theories/
cd "$(dirname "$0")/../rocq"
{ echo "-Q theories Verif"; ls theories/*.v; } > _CoqProject
