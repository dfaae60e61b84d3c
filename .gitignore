*.vo
*.vok
*.vos
*.glob
*.aux
.*.aux
.lia.cache
.nia.cache
.Makefile.d
.CoqMakefile.d
rocq/Makefile
rocq/Makefile.conf
.nra.cache
__pycache__/
