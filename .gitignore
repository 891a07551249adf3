*.vo
*.vos
*.vok
*.glob
*.aux
.*.aux
*.cache
.lia.cache
.nia.cache
rocq/Makefile
rocq/Makefile.conf
rocq/.Makefile.d
.Makefile.d
.CoqMakefile.d
