*.vo
*.vok
*.vos
*.glob
*.aux
.lia.cache
.nia.cache
Makefile
Makefile.conf
.Makefile.d
.CoqMakefile.d
.nra.cache
rocq/.nra.cache
