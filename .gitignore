*.vo
*.vok
*.vos
*.glob
*.aux
.*.aux
.lia.cache
.nia.cache
.CoqMakefile.d
.Makefile.d
rocq/Makefile
rocq/Makefile.conf
