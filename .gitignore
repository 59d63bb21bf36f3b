.lia.cache
.nia.cache
*.vo
*.vok
*.vos
*.glob
*.aux
Makefile
Makefile.conf
.Makefile.d
.CoqMakefile.d
.nra.cache
