*.vo
*.vok
*.vos
*.glob
.*.aux
.lia.cache
.nra.cache
Makefile
Makefile.conf
.Makefile.d
CoqMakefile.conf
.nia.cache
.lia.cache
