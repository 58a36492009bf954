*.vo
*.vok
*.vos
*.glob
.*.aux
.nia.cache
.lia.cache
Makefile
Makefile.conf
.Makefile.d
.CoqMakefile.d
.nra.cache
