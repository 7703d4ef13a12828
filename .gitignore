*.vo
*.vok
*.vos
*.glob
.*.aux
.lia.cache
.nia.cache
Makefile
Makefile.conf
.Makefile.d
CoqMakefile*
rocq/Makefile*
__pycache__/
