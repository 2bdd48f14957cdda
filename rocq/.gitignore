*.vo
*.vok
*.vos
*.glob
*.aux
Makefile
Makefile.conf
.Makefile.d
*.d
.lia.cache
.nia.cache
.nra.cache
.lra.cache
*.cache
Makefile.conf
.Makefile.d
.CoqMakefile.d
