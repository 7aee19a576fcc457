#!/bin/bash
cd /verif/rocq
{ echo "-Q theories Verif"; cat /verif/tools/order.txt | sed 's#^#theories/#;s#$#.v#'; } > _CoqProject
coq_makefile -f _CoqProject -o Makefile >/dev/null
timeout ${T:-850} make -j4 2>&1 | grep -v '^COQC\|^COQDEP' | head -${L:-60}
